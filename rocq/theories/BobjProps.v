(** Properties of the [Badelf] object. *)
From Coq Require Import QArith Lia.
From Verif Require Import Base BobjModel.
Local Open Scope Z_scope.
Arguments zero_flux {Labels Planes Split}. Arguments planes_of {Labels Planes Split}. Arguments zf_charges {Labels Planes Split}. Arguments assign {Labels Planes Split}.
Arguments natoms {Labels Planes Split}. Arguments nsites {Labels Planes Split}. Arguments dims_of {Labels Planes Split}. Arguments dists_of {Labels Planes Split}.
Arguments factor {Labels Planes Split}. Arguments vac_charge {Labels Planes Split}. Arguments vac_volume {Labels Planes Split}. Arguments r10 {Labels Planes Split}.
Arguments method {Labels Planes Split}. Arguments split {Labels Planes Split}.
Arguments c_planes {Labels Planes Split}. Arguments c_zero {Labels Planes Split}. Arguments c_labels {Labels Planes Split}. Arguments c_charges {Labels Planes Split}.
Arguments c_volumes {Labels Planes Split}. Arguments c_dims {Labels Planes Split}. Arguments c_cuts {Labels Planes Split}. Arguments c_dim {Labels Planes Split}.
Arguments c_min {Labels Planes Split}. Arguments c_avg {Labels Planes Split}. Arguments c_epf {Labels Planes Split}. Arguments c_eprf {Labels Planes Split}.
Arguments new_object {Labels Planes Split}. Arguments run {Labels Planes Split}. Arguments get {Labels Planes Split}. Arguments step {Labels Planes Split}.
Arguments Get {Split}. Arguments SetMethod {Split}. Arguments SetSplit {Split}.
Arguments ALabels {Labels Planes}. Arguments ANumbers {Labels Planes}. Arguments ANumber {Labels Planes}. Arguments APlanes {Labels Planes}. Arguments ADims {Labels Planes}.
Arguments ACuts {Labels Planes}. Arguments ADim {Labels Planes}. Arguments Minus1 {A}. Arguments Val {A}.
Arguments bind {Labels Planes Split A B}. Arguments read {Labels Planes Split A}. Arguments ret {Labels Planes Split A}. Arguments modify {Labels Planes Split}.
Arguments if_unset {Labels Planes Split A}. Arguments need {Labels Planes Split A}. Arguments of_option {Labels Planes Split A}. Arguments raise {Labels Planes Split A}.

Section Object.
Context {Labels Planes Split : Type}.
Notation world := (world Labels Planes Split).
Notation state := (state Labels Planes Split).
Variable w : world.

(** ** What an assignment of the voxels determines *)
(** Labels, charges and volumes. *)
Definition outcome : Type := Labels * (list Q * list Q).
(** The electrons of the electride sites, from rounded charges. *)
Definition electrons (c : list Q) : Q := fold_left Qplus (firstn (nsites w - natoms w) (skipn (natoms w) (map (r10 w) c))) 0%Q.
(** The answer of a getter (other than the planes) that belongs to an assignment. *)
Definition belongs (r : outcome) (g : getter) (a : answer Labels Planes) : Prop :=
  let '(l, (c, v)) := r in
  match g with
  | GCharges => a = ANumbers (map (r10 w) c)
  | GVolumes => a = ANumbers (map (r10 w) v)
  | GLabels => a = ALabels l
  | GPlanes => True
  | GDims => exists d q, dims_of w l = Some (d, q) /\ a = ADims (Some d)
  | GCuts => exists d q, dims_of w l = Some (d, q) /\ a = ACuts (Some q)
  | GDim => exists x d q, dims_of w l = Some (x :: d, q) /\ a = ADim (Some x)
  | GMin => exists m n, dists_of w l = Some (m, n) /\ a = ANumbers (map (r10 w) m)
  | GAvg => exists m n, dists_of w l = Some (m, n) /\ a = ANumbers (map (r10 w) n)
  | GElectrides => a = ANumber (r10 w (electrons c))
  | GReduced => a = ANumber (r10 w (r10 w (electrons c) / factor w))
  | GVolume => a = ANumber (r10 w (fold_right Qplus 0 (map (r10 w) v) + vac_volume w))
  | GElectrons => a = ANumber (r10 w (fold_right Qplus 0 (map (r10 w) c) + vac_charge w))
  end%Q.
(** The assignment for some settings, with the planes of method [m']. *)
Definition assigned (m : how) (sp : Split) (m' : meth) (r : outcome) : Prop :=
  exists z, zero_flux w = Some z /\
  match m with
  | ZeroFlux => fst r = z /\ zf_charges w sp = Some (snd r)
  | Planar m => exists p, planes_of w m' = Some p /\ assign w m p z = Some r
  end.
(** Nothing raises: labels, planes, assignments, dimensionalities and distances exist, and every site has a charge. *)
Definition works : Prop :=
  zero_flux w <> None /\ (forall m, planes_of w m <> None) /\ (forall sp, zf_charges w sp <> None) /\ (forall m p l, assign w m p l <> None) /\
  (forall l, exists x d q, dims_of w l = Some (x :: d, q)) /\ (forall l, dists_of w l <> None) /\
  (forall sp c v, zf_charges w sp = Some (c, v) -> (nsites w <= length c)%nat) /\ (forall m p z l c v, assign w m p z = Some (l, (c, v)) -> (nsites w <= length c)%nat).
Hypothesis W : works.
Variable allowed : meth -> Prop.
(** The state after an assignment [r], or before any. *)
Definition inv (R : option outcome) (s : state) : Prop :=
  (forall m, method s = Planar m -> allowed m) /\
  (c_zero s = None \/ c_zero s = zero_flux w) /\ (c_planes s = None \/ exists m, allowed m /\ c_planes s = planes_of w m) /\
  match R with
  | None => c_labels s = None /\ c_charges s = None /\ c_volumes s = None /\ c_dims s = None /\ c_cuts s = None /\ c_dim s = None /\ c_min s = None /\ c_avg s = None /\
      (c_epf s = None \/ nsites w - natoms w = 0 /\ c_epf s = Some 0%Q)%nat /\ (c_eprf s = None \/ nsites w - natoms w = 0 /\ c_eprf s = Some (r10 w 0 / factor w)%Q)%nat
  | Some (l, (c, v)) => (length c >= nsites w)%nat /\ c_labels s = Some l /\ c_charges s = Some c /\ c_volumes s = Some v /\
      (c_dims s = None /\ c_cuts s = None /\ c_dim s = None \/
       exists x d q, dims_of w l = Some (x :: d, q) /\ c_dims s = Some (Val (x :: d)) /\ c_cuts s = Some (Val q) /\ (c_dim s = None \/ c_dim s = Some x)) /\
      (c_min s = None /\ c_avg s = None \/ exists m n, dists_of w l = Some (m, n) /\ c_min s = Some m /\ c_avg s = Some n) /\
      (c_epf s = None \/ c_epf s = Some (electrons c)) /\ (c_eprf s = None \/ c_eprf s = Some (r10 w (electrons c) / factor w)%Q)
  end.
Definition possible (s : state) (r : outcome) : Prop := exists m', (method s = ZeroFlux \/ allowed m') /\ assigned (method s) (split s) m' r.
Definition same_settings (s s' : state) : Prop := method s' = method s /\ split s' = split s.
Definition grown (s : state) (R R' : option outcome) : Prop := R' = R \/ R = None /\ exists r, R' = Some r /\ possible s r.

Ltac cj := repeat match goal with |- _ /\ _ => split end; auto; try (split; reflexivity).
Lemma bind_ok {A B} (m : M _ _ _ A) (k : A -> M _ _ _ B) (s s' : state) a : m s = (Some a, s') -> bind m k s = k a s'.
Proof. intros E. unfold bind. now rewrite E. Qed.
Lemma bind_read {A B} (f : state -> A) (k : A -> M _ _ _ B) s : bind (read f) k s = k (f s) s.
Proof. reflexivity. Qed.
Lemma if_set {A} (f : state -> option A) (m : M _ _ _ unit) s a : f s = Some a -> if_unset f m s = (Some tt, s).
Proof. intros E. unfold if_unset. rewrite bind_read, E. reflexivity. Qed.
Lemma if_not {A} (f : state -> option A) (m : M _ _ _ unit) s : f s = None -> if_unset f m s = m s.
Proof. intros E. unfold if_unset. rewrite bind_read, E. reflexivity. Qed.
Lemma need_ok {A} (f : state -> option A) s a : f s = Some a -> need f s = (Some a, s).
Proof. intros E. unfold need. rewrite bind_read, E. reflexivity. Qed.
Lemma opt_ok {A} (o : option A) (s : state) a : o = Some a -> of_option o s = (Some a, s).
Proof. now intros ->. Qed.
Lemma modify_ok (f : state -> state) s : modify f s = (Some tt, f s).
Proof. reflexivity. Qed.

Lemma zero_ok R s : inv R s -> exists z s', zero_flux_labels _ _ _ w s = (Some z, s') /\ zero_flux w = Some z /\ inv R s' /\ same_settings s s' /\ c_planes s' = c_planes s.
Proof.
  intros (A & Z & P & I). destruct W as (Wz & _). destruct (zero_flux w) as [z|] eqn:Ez; [|tauto]. unfold zero_flux_labels.
  destruct Z as [Z|Z].
  - exists z, (set_zero _ _ _ (Some z) s).
    erewrite bind_ok by (rewrite (if_not _ _ _ Z), (bind_ok _ _ _ _ z) by (now apply opt_ok); apply modify_ok).
    repeat split; auto.
  - exists z, s. erewrite bind_ok by (eapply if_set; exact Z). repeat split; auto. now apply need_ok. right. now rewrite Ez.
Qed.
Lemma planes_ok R s : inv R s -> exists p s', partitioning_planes _ _ _ w s = (Some p, s') /\ inv R s' /\ same_settings s s' /\
  match method s with ZeroFlux => p = None | Planar _ => exists m p', allowed m /\ planes_of w m = Some p' /\ p = Some p' end.
Proof.
  intros (A & Z & P & I). destruct W as (_ & Wp & _). unfold partitioning_planes. rewrite bind_read. destruct (method s) as [|m] eqn:Em.
  - exists None, s. repeat split; auto. now rewrite Em.
  - destruct P as [P|(m' & Am & P)].
    + destruct (planes_of w m) as [p|] eqn:Ep; [|now elim (Wp m)]. exists (Some p), (set_planes _ _ _ (Some p) s).
      erewrite bind_ok by (rewrite (if_not _ _ _ P), (bind_ok _ _ _ _ p) by (now apply opt_ok); apply modify_ok).
      repeat split; auto; [cbn; intros m0 E0; rewrite Em in E0; auto|right; exists m; split; auto|]. exists m, p. auto.
    + destruct (planes_of w m') as [p|] eqn:Ep; [|now elim (Wp m')]. exists (Some p), s. erewrite bind_ok by (eapply if_set; exact P).
      repeat split; auto. unfold read. now rewrite P. intros m0 E0; rewrite Em in E0; auto. right. exists m'. split; auto. congruence. exists m', p. auto.
Qed.
Lemma stored s l c v : inv None s -> (nsites w <= length c)%nat -> inv (Some (l, (c, v))) (set_charges _ _ _ (Some c) (Some v) (set_labels _ _ _ (Some l) s)).
Proof.
  intros (A & Z & P & I) L. unfold inv. cbn [c_zero c_planes method c_labels c_charges c_volumes c_dims c_cuts c_dim c_min c_avg c_epf c_eprf set_charges set_labels].
  split; auto. split; auto. split; auto. split; auto. split; auto. split; auto. split; auto. split; [tauto|]. split; [tauto|]. destruct I as (_ & _ & _ & _ & _ & _ & _ & _ & E & F). split.
  - destruct E as [E|(N & E)]; auto. right. rewrite E. unfold electrons. now rewrite N.
  - destruct F as [F|(N & F)]; auto. right. rewrite F. unfold electrons. now rewrite N.
Qed.
(** The assignment. *)
Lemma voxels_ok s : inv None s -> exists r s', get_voxel_assignments _ _ _ w s = (Some tt, s') /\ inv (Some r) s' /\ same_settings s s' /\ possible s r.
Proof.
  intros I. destruct (planes_ok _ _ I) as (p & s1 & E1 & I1 & (M1 & S1) & P1). destruct (zero_ok _ _ I1) as (z & s2 & E2 & Z2 & I2 & (M2 & S2) & _).
  unfold get_voxel_assignments. rewrite (bind_ok _ _ _ _ _ E1), (bind_ok _ _ _ _ _ E2), bind_read.
  destruct W as (_ & _ & Wc & Wa & _ & _ & Lc & La).
  assert (Em : method s2 = method s) by congruence. assert (Es : split s2 = split s) by congruence. rewrite Em.
  destruct (method s) as [|m] eqn:Eh.
  - destruct (zf_charges w (split s)) as [[c v]|] eqn:Ec; [|now elim (Wc (split s))].
    exists (z, (c, v)), (set_charges _ _ _ (Some c) (Some v) (set_labels _ _ _ (Some z) s2)).
    rewrite (bind_ok _ _ _ _ _ (modify_ok _ _)), bind_read. erewrite bind_ok by (apply opt_ok; cbn [split set_labels]; rewrite Es; exact Ec).
    split; [reflexivity|]. split; [apply stored; auto; eauto|]. split; [split; [exact (eq_trans Em (eq_sym Eh))|exact Es]|].
    exists Badelf. rewrite Eh. split; auto. exists z. auto.
  - destruct P1 as (m' & p' & Am & Pm & ->). destruct (assign w m p' z) as [[l [c v]]|] eqn:Ec; [|now elim (Wa m p' z)].
    exists (l, (c, v)), (set_charges _ _ _ (Some c) (Some v) (set_labels _ _ _ (Some l) s2)).
    erewrite bind_ok by (apply opt_ok; reflexivity). erewrite bind_ok by (apply opt_ok; exact Ec). cbn beta iota. rewrite (bind_ok _ _ _ _ _ (modify_ok _ _)).
    split; [reflexivity|]. split; [apply stored; auto; eauto|]. split; [split; [exact (eq_trans Em (eq_sym Eh))|exact Es]|].
    exists m'. rewrite Eh. split; auto. exists z. split; auto. exists p'. auto.
Qed.
(** Labels, charges and volumes. *)
Lemma fill_ok {A} (f : state -> option A) (val : outcome -> A) R s : inv R s -> (forall s, inv None s -> f s = None) -> (forall r s, inv (Some r) s -> f s = Some (val r)) ->
  exists r s', if_unset f (get_voxel_assignments _ _ _ w) s = (Some tt, s') /\ f s' = Some (val r) /\ inv (Some r) s' /\ same_settings s s' /\ grown s R (Some r).
Proof.
  intros I N V. destruct R as [r|].
  - exists r, s. cj. eapply if_set; eauto. now left.
  - destruct (voxels_ok s I) as (r & s' & E & I' & S & P). exists r, s'. rewrite (if_not _ _ _ (N _ I)). cj. right. split; auto. exists r. auto.
Qed.
Lemma charges_ok R s : inv R s -> exists r s', charges _ _ _ w s = (Some (map (r10 w) (fst (snd r))), s') /\ inv (Some r) s' /\ same_settings s s' /\ grown s R (Some r).
Proof.
  intros I. destruct (fill_ok c_charges (fun r => fst (snd r)) R s I) as (r & s' & E & F & G); [intros ? H; apply H|intros (? & ? & ?) ? H; apply H|].
  exists r, s'. split; auto. unfold charges. rewrite (bind_ok _ _ _ _ _ E), (bind_ok _ _ _ _ _ (need_ok _ _ _ F)). reflexivity.
Qed.
Lemma volumes_ok R s : inv R s -> exists r s', volumes _ _ _ w s = (Some (map (r10 w) (snd (snd r))), s') /\ inv (Some r) s' /\ same_settings s s' /\ grown s R (Some r).
Proof.
  intros I. destruct (fill_ok c_volumes (fun r => snd (snd r)) R s I) as (r & s' & E & F & G); [intros ? H; apply H|intros (? & ? & ?) ? H; apply H|].
  exists r, s'. split; auto. unfold volumes. rewrite (bind_ok _ _ _ _ _ E), (bind_ok _ _ _ _ _ (need_ok _ _ _ F)). reflexivity.
Qed.
Lemma labels_ok R s : inv R s -> exists r s', atom_labels _ _ _ w s = (Some (fst r), s') /\ inv (Some r) s' /\ same_settings s s' /\ grown s R (Some r).
Proof.
  intros I. destruct (fill_ok c_labels fst R s I) as (r & s' & E & F & G); [intros ? H; apply H|intros (? & ? & ?) ? H; apply H|].
  exists r, s'. split; auto. unfold atom_labels. rewrite (bind_ok _ _ _ _ _ E). now apply need_ok.
Qed.
Lemma labels_dims d c s : atom_labels _ _ _ w (set_dims _ _ _ d c s) = let '(a, s') := atom_labels _ _ _ w s in (a, set_dims _ _ _ d c s').
Proof.
  destruct s as [m sp pl z l ch v ds cs di mi av e1 e2]. unfold atom_labels, if_unset, need, get_voxel_assignments, partitioning_planes, zero_flux_labels, if_unset, need, bind, read, modify, of_option, ret, raise.
  destruct l; [reflexivity|]. destruct m as [|m]; destruct z as [z|], pl as [pl|]; cbn; try destruct (planes_of w m); cbn; try destruct (zero_flux w); cbn; try destruct (zf_charges w sp) as [[? ?]|]; cbn;
    try match goal with |- context [assign w ?a ?b ?c] => destruct (assign w a b c) as [[? [? ?]]|] end; reflexivity.
Qed.
Lemma dimension_ok R s : inv R s -> c_dims s = None -> exists r s' x d q, get_electride_dimensionality _ _ _ w s = (Some tt, s') /\ dims_of w (fst r) = Some (x :: d, q) /\
  c_dims s' = Some (Val (x :: d)) /\ c_cuts s' = Some (Val q) /\ inv (Some r) s' /\ same_settings s s' /\ grown s R (Some r).
Proof.
  intros I N. destruct (labels_ok _ _ I) as (r & s1 & E & I1 & S & G). destruct W as (_ & _ & _ & _ & Wd & _). destruct (Wd (fst r)) as (x & d & q & D).
  assert (X : exists s2, get_electride_dimensionality _ _ _ w s = (Some tt, set_dims _ _ _ (Some (Val (x :: d))) (Some (Val q)) s2) /\ (s2 = s1 \/ s2 = set_dims _ _ _ (Some Minus1) (Some Minus1) s1)).
  { unfold get_electride_dimensionality. destruct (Nat.eqb _ 0).
    - exists (set_dims _ _ _ (Some Minus1) (Some Minus1) s1). split; auto. rewrite (bind_ok _ _ _ _ _ (modify_ok _ _)).
      erewrite bind_ok by (rewrite labels_dims, E; reflexivity). erewrite bind_ok by (apply opt_ok; exact D). reflexivity.
    - exists s1. split; auto. erewrite bind_ok by reflexivity. rewrite (bind_ok _ _ _ _ _ E). erewrite bind_ok by (apply opt_ok; exact D). reflexivity. }
  destruct X as (s2 & X & Y). exists r, (set_dims _ _ _ (Some (Val (x :: d))) (Some (Val q)) s2), x, d, q. split; auto. split; auto. split; auto. split; auto.
  assert (T : inv (Some r) (set_dims _ _ _ (Some (Val (x :: d))) (Some (Val q)) s1)).
  { destruct r as [l [c v]]. destruct I1 as (A & Z & P & L & I1). unfold inv. cbn [c_zero c_planes method c_labels c_charges c_volumes c_dims c_cuts c_dim c_min c_avg c_epf c_eprf set_dims].
    split; auto. split; auto. split; auto. split; auto. destruct I1 as (? & ? & ? & Ds & ?). repeat (split; auto). right. exists x, d, q. repeat split; auto.
    destruct Ds as [Ds|(x' & d' & q' & D' & _ & _ & Ds)]; [left; tauto|]. cbn in D. rewrite D in D'. injection D' as <- <- <-. auto. }
  destruct Y as [-> | ->]; (split; [exact T|]); auto.
Qed.
Lemma dists_ok R s : inv R s -> c_min s = None -> exists r s' a b, get_min_avg_surface_dists _ _ _ w s = (Some tt, s') /\ dists_of w (fst r) = Some (a, b) /\
  c_min s' = Some a /\ c_avg s' = Some b /\ inv (Some r) s' /\ same_settings s s' /\ grown s R (Some r).
Proof.
  intros I N. destruct (labels_ok _ _ I) as (r & s1 & E & I1 & S & G). destruct W as (_ & _ & _ & _ & _ & Wd & _). destruct (dists_of w (fst r)) as [[a b]|] eqn:D; [|now elim (Wd (fst r))].
  exists r, (set_dists _ _ _ (Some a) (Some b) s1), a, b. unfold get_min_avg_surface_dists. rewrite (bind_ok _ _ _ _ _ E). split; [erewrite bind_ok by (apply opt_ok; exact D); reflexivity|].
  split; auto. split; auto. split; auto. split; [|split; auto].
  destruct r as [l [c v]]. destruct I1 as (A & Z & P & L & I1). unfold inv. cbn [c_zero c_planes method c_labels c_charges c_volumes c_dims c_cuts c_dim c_min c_avg c_epf c_eprf set_dists].
  split; auto. split; auto. split; auto. split; auto. destruct I1 as (? & ? & ? & ? & _ & ?). repeat (split; auto). right. exists a, b. auto.
Qed.
Lemma sum_ok r : forall n i acc s, inv (Some r) s -> (i + n <= nsites w)%nat ->
  sum_sites _ _ _ w n i acc s = (Some (fold_left Qplus (firstn n (skipn i (map (r10 w) (fst (snd r))))) acc), s).
Proof.
  assert (C : forall s, inv (Some r) s -> charges _ _ _ w s = (Some (map (r10 w) (fst (snd r))), s)).
  { intros s I. destruct r as [l [c v]]. destruct I as (_ & _ & _ & _ & _ & C & _). unfold charges. rewrite (bind_ok _ _ _ _ _ (if_set _ _ _ _ C)), (bind_ok _ _ _ _ _ (need_ok _ _ _ C)). reflexivity. }
  induction n as [|n IH]; intros i acc s I L; [reflexivity|]. cbn [sum_sites]. rewrite (bind_ok _ _ _ _ _ (C _ I)).
  assert (Len : (i < length (map (r10 w) (fst (snd r))))%nat). { rewrite map_length. destruct r as [l [c v]]. destruct I as (_ & _ & _ & I & _). cbn. lia. }
  destruct (nth_error (map (r10 w) (fst (snd r))) i) as [x|] eqn:E; [|apply nth_error_None in E; lia]. erewrite bind_ok by (apply opt_ok; reflexivity).
  rewrite (IH _ _ _ I) by lia. f_equal. f_equal.
  assert (K : skipn i (map (r10 w) (fst (snd r))) = x :: skipn (S i) (map (r10 w) (fst (snd r)))).
  { clear - E. revert i E. generalize (map (r10 w) (fst (snd r))). induction l as [|y l IH]; intros [|i] E; try discriminate E; cbn in E. - now injection E as ->. - cbn [skipn]. now apply IH. }
  rewrite K. reflexivity.
Qed.
Lemma sum_first R s : inv R s -> exists R' s' e, sum_sites _ _ _ w (nsites w - natoms w) (natoms w) 0%Q s = (Some e, s') /\ inv R' s' /\ same_settings s s' /\ grown s R R' /\
  match R' with None => (nsites w - natoms w = 0)%nat /\ e = 0%Q | Some r => e = electrons (fst (snd r)) end.
Proof.
  intros I. destruct R as [r|].
  - exists (Some r), s. eexists. split; [|split; [exact I|split; [split; reflexivity|split; [now left|]]]].
    + destruct (Nat.leb (natoms w) (nsites w)) eqn:N; [apply Nat.leb_le in N|apply Nat.leb_gt in N].
      * apply (sum_ok r); auto. lia.
      * replace (nsites w - natoms w)%nat with 0%nat by lia. reflexivity.
    + unfold electrons. reflexivity.
  - destruct (nsites w - natoms w)%nat as [|n] eqn:N.
    + exists None, s, 0%Q. cj. now left.
    + destruct (charges_ok _ _ I) as (r & s1 & E & I1 & S & G). exists (Some r), s1. eexists. split; [|split; [exact I1|split; [exact S|split; [exact G|]]]].
      * transitivity (sum_sites _ _ _ w (Datatypes.S n) (natoms w) 0%Q s1); [|apply (sum_ok r); auto; lia].
        cbn [sum_sites]. rewrite (bind_ok _ _ _ _ _ E). destruct (charges_ok _ _ I1) as (r' & s1' & E' & I1' & S' & [G'|(G' & _)]); [|discriminate]. injection G' as ->.
        assert (s1' = s1). { destruct r as [l [c v]]. destruct I1 as (_ & _ & _ & _ & _ & C & _). unfold charges in E'. rewrite (bind_ok _ _ _ _ _ (if_set _ _ _ _ C)), (bind_ok _ _ _ _ _ (need_ok _ _ _ C)) in E'. now injection E'. }
        subst s1'. rewrite (bind_ok _ _ _ _ _ E'). reflexivity.
      * unfold electrons. now rewrite N.
Qed.

Lemma grown_all s R r (P : outcome -> Prop) : grown s R (Some r) -> P r -> forall r', Some r = None \/ Some r = Some r' -> P r'.
Proof. intros _ H r' [E|E]; [discriminate|]. now injection E as <-. Qed.
Lemma same_trans (s s1 s2 : state) : same_settings s s1 -> same_settings s1 s2 -> same_settings s s2.
Proof. intros [] []. split; congruence. Qed.
Definition planes_answer (s : state) (a : answer Labels Planes) : Prop :=
  match method s with ZeroFlux => a = APlanes None | Planar _ => exists m p, allowed m /\ planes_of w m = Some p /\ a = APlanes (Some p) end.
Definition answers (g : getter) (s : state) (m : M _ _ _ (answer Labels Planes)) : Prop := forall R, inv R s ->
  exists a s' R', m s = (Some a, s') /\ inv R' s' /\ same_settings s s' /\ grown s R R' /\ (forall r, R' = None \/ R' = Some r -> belongs r g a) /\ (g = GPlanes -> planes_answer s a).

Lemma dims_read R s : inv R s -> exists r s' x d q, all_electride_dims _ _ _ w s = (Some (Some (x :: d)), s') /\ dims_of w (fst r) = Some (x :: d, q) /\ inv (Some r) s' /\ same_settings s s' /\ grown s R (Some r) /\
  c_dims s' = Some (Val (x :: d)).
Proof.
  intros I. unfold all_electride_dims. destruct (c_dims s) as [dm|] eqn:D.
  - destruct R as [[l [c v]]|]; [|exfalso; destruct I as (_ & _ & _ & _ & _ & _ & E & _); congruence].
    assert (I0 := I). destruct I0 as (_ & _ & _ & _ & _ & _ & _ & [(E & _)|(x & d & q & Ed & E & _)] & _); [congruence|]. rewrite E in D. injection D as <-.
    exists (l, (c, v)), s, x, d, q. rewrite (bind_ok _ _ _ _ _ (if_set _ _ _ _ E)), (bind_ok _ _ _ _ _ (need_ok _ _ _ E)). cj. now left.
  - destruct (dimension_ok _ _ I D) as (r & s' & x & d & q & E & Ed & E1 & E2 & I' & S & G). exists r, s', x, d, q.
    erewrite bind_ok by (rewrite (if_not _ _ _ D); exact E). rewrite (bind_ok _ _ _ _ _ (need_ok _ _ _ E1)). cj.
Qed.
Lemma cuts_read R s : inv R s -> exists r s' x d q, all_electride_dim_cutoffs _ _ _ w s = (Some (Some q), s') /\ dims_of w (fst r) = Some (x :: d, q) /\ inv (Some r) s' /\ same_settings s s' /\ grown s R (Some r).
Proof.
  intros I. unfold all_electride_dim_cutoffs. destruct (c_cuts s) as [dm|] eqn:D.
  - destruct R as [[l [c v]]|]; [|exfalso; destruct I as (_ & _ & _ & _ & _ & _ & _ & E & _); congruence].
    assert (I0 := I). destruct I0 as (_ & _ & _ & _ & _ & _ & _ & [(_ & E & _)|(x & d & q & Ed & _ & E & _)] & _); [congruence|]. rewrite E in D. injection D as <-.
    exists (l, (c, v)), s, x, d, q. rewrite (bind_ok _ _ _ _ _ (if_set _ _ _ _ E)), (bind_ok _ _ _ _ _ (need_ok _ _ _ E)). cj. now left.
  - assert (D' : c_dims s = None).
    { destruct R as [[l [c v]]|]; [|apply I]. destruct I as (_ & _ & _ & _ & _ & _ & _ & [(E & _)|(x & d & q & Ed & _ & E & _)] & _); auto. congruence. }
    destruct (dimension_ok _ _ I D') as (r & s' & x & d & q & E & Ed & E1 & E2 & I' & S & G). exists r, s', x, d, q.
    erewrite bind_ok by (rewrite (if_not _ _ _ D); exact E). rewrite (bind_ok _ _ _ _ _ (need_ok _ _ _ E2)). cj.
Qed.
Lemma dim_read R s : inv R s -> exists r s' x d q, electride_dimensionality _ _ _ w s = (Some (Some x), s') /\ dims_of w (fst r) = Some (x :: d, q) /\ inv (Some r) s' /\ same_settings s s' /\ grown s R (Some r).
Proof.
  intros I. unfold electride_dimensionality. destruct (c_dim s) as [y|] eqn:D.
  - destruct R as [[l [c v]]|]; [|exfalso; destruct I as (_ & _ & _ & _ & _ & _ & _ & _ & E & _); congruence].
    assert (I0 := I). destruct I0 as (_ & _ & _ & _ & _ & _ & _ & [(_ & _ & E)|(x & d & q & Ed & _ & _ & [E|E])] & _); [congruence|congruence|]. rewrite E in D. injection D as <-.
    exists (l, (c, v)), s, x, d, q. rewrite (bind_ok _ _ _ _ _ (if_set _ _ _ _ E)). unfold read. rewrite E. cj. now left.
  - destruct (dims_read _ _ I) as (r & s' & x & d & q & E & Ed & I' & S & G & E1). exists r, (set_dim _ _ _ (Some x) s'), x, d, q.
    split; [|split; [exact Ed|split; [|split; [exact S|exact G]]]].
    + erewrite bind_ok; [|rewrite (if_not _ _ _ D), (bind_ok _ _ _ _ _ E); erewrite bind_ok by (apply opt_ok; reflexivity); reflexivity]. reflexivity.
    + destruct r as [l [c v]]. destruct I' as (A & Z & P & L & J1 & J2 & J3 & J4 & J). unfold inv. cbn [c_zero c_planes method c_labels c_charges c_volumes c_dims c_cuts c_dim c_min c_avg c_epf c_eprf set_dim].
      split; auto. split; auto. split; auto. split; auto. split; auto. split; auto. split; auto. split; auto. right.
      destruct J4 as [(J4 & _)|(x' & d' & q' & Ed' & J5 & J6 & _)]; [congruence|]. cbn [fst] in Ed. rewrite Ed in Ed'. injection Ed' as <- <- <-. exists x, d, q. auto.
Qed.
Lemma min_read R s : inv R s -> exists r s' a b, min_surface_distances _ _ _ w s = (Some (map (r10 w) a), s') /\ dists_of w (fst r) = Some (a, b) /\ inv (Some r) s' /\ same_settings s s' /\ grown s R (Some r).
Proof.
  intros I. unfold min_surface_distances. destruct (c_min s) as [y|] eqn:D.
  - destruct R as [[l [c v]]|]; [|exfalso; destruct I as (_ & _ & _ & _ & _ & _ & _ & _ & _ & E & _); congruence].
    assert (I0 := I). destruct I0 as (_ & _ & _ & _ & _ & _ & _ & _ & [(E & _)|(a & b & Ed & E & _)] & _); [congruence|].
    exists (l, (c, v)), s, a, b. rewrite (bind_ok _ _ _ _ _ (if_set _ _ _ _ E)), (bind_ok _ _ _ _ _ (need_ok _ _ _ E)). cj. now left.
  - destruct (dists_ok _ _ I D) as (r & s' & a & b & E & Ed & E1 & E2 & I' & S & G). exists r, s', a, b.
    erewrite bind_ok by (rewrite (if_not _ _ _ D); exact E). rewrite (bind_ok _ _ _ _ _ (need_ok _ _ _ E1)). cj.
Qed.
Lemma avg_read R s : inv R s -> exists r s' a b, avg_surface_distances _ _ _ w s = (Some (map (r10 w) b), s') /\ dists_of w (fst r) = Some (a, b) /\ inv (Some r) s' /\ same_settings s s' /\ grown s R (Some r).
Proof.
  intros I. unfold avg_surface_distances. destruct (c_avg s) as [y|] eqn:D.
  - destruct R as [[l [c v]]|]; [|exfalso; destruct I as (_ & _ & _ & _ & _ & _ & _ & _ & _ & _ & E & _); congruence].
    assert (I0 := I). destruct I0 as (_ & _ & _ & _ & _ & _ & _ & _ & [(_ & E)|(a & b & Ed & _ & E)] & _); [congruence|].
    exists (l, (c, v)), s, a, b. rewrite (bind_ok _ _ _ _ _ (if_set _ _ _ _ E)), (bind_ok _ _ _ _ _ (need_ok _ _ _ E)). cj. now left.
  - assert (D' : c_min s = None).
    { destruct R as [[l [c v]]|]; [|apply I]. destruct I as (_ & _ & _ & _ & _ & _ & _ & _ & [(E & _)|(x & d & Ed & _ & E)] & _); auto. congruence. }
    destruct (dists_ok _ _ I D') as (r & s' & a & b & E & Ed & E1 & E2 & I' & S & G). exists r, s', a, b.
    erewrite bind_ok by (rewrite (if_not _ _ _ D); exact E). rewrite (bind_ok _ _ _ _ _ (need_ok _ _ _ E2)). cj.
Qed.
(** The sum of electride electrons that goes with what is known. *)
Definition electrons_of (R : option outcome) (e : Q) : Prop := match R with None => (nsites w - natoms w = 0)%nat /\ e = 0%Q | Some r => e = electrons (fst (snd r)) end.
Lemma epf_read R s : inv R s -> exists R' s' e, electrides_per_formula _ _ _ w s = (Some (r10 w e), s') /\ electrons_of R' e /\ inv R' s' /\ same_settings s s' /\ grown s R R'.
Proof.
  intros I. unfold electrides_per_formula. destruct (c_epf s) as [y|] eqn:D.
  - exists R, s, y. rewrite (bind_ok _ _ _ _ _ (if_set _ _ _ _ D)), (bind_ok _ _ _ _ _ (need_ok _ _ _ D)). cj; [|now left].
    destruct R as [[l [c v]]|]; cbn.
    + destruct I as (_ & _ & _ & _ & _ & _ & _ & _ & _ & [E|E] & _); congruence.
    + destruct I as (_ & _ & _ & _ & _ & _ & _ & _ & _ & _ & _ & [E|(N & E)] & _); [congruence|]. split; auto. congruence.
  - destruct (sum_first _ _ I) as (R' & s' & e & E & I' & S & G & X). exists R', (set_formula _ _ _ (Some e) (c_eprf s') s'), e.
    split; [|split; [exact X|split; [|split; [exact S|exact G]]]].
    + erewrite bind_ok; [|rewrite (if_not _ _ _ D), (bind_ok _ _ _ _ _ E), bind_read; reflexivity]. erewrite bind_ok by (apply need_ok; reflexivity). reflexivity.
    + destruct R' as [[l [c v]]|].
      * destruct I' as (A & Z & P & L & J1 & J2 & J3 & J4 & J5 & J6 & J7). unfold inv. cbn [c_zero c_planes method c_labels c_charges c_volumes c_dims c_cuts c_dim c_min c_avg c_epf c_eprf set_formula].
        repeat (split; auto). right. cbn in X. now subst e.
      * destruct I' as (A & Z & P & L & J1 & J2 & J3 & J4 & J5 & J6 & J7 & J8 & J9). unfold inv. cbn [c_zero c_planes method c_labels c_charges c_volumes c_dims c_cuts c_dim c_min c_avg c_epf c_eprf set_formula].
        destruct X as [N ->]. repeat (split; auto).
Qed.
Lemma eprf_read R s : inv R s -> exists R' s' e, electrides_per_reduced_formula _ _ _ w s = (Some (r10 w (r10 w e / factor w)%Q), s') /\ electrons_of R' e /\ inv R' s' /\ same_settings s s' /\ grown s R R'.
Proof.
  intros I. unfold electrides_per_reduced_formula. destruct (c_eprf s) as [y|] eqn:D.
  - rewrite (bind_ok _ _ _ _ _ (if_set _ _ _ _ D)), (bind_ok _ _ _ _ _ (need_ok _ _ _ D)). destruct R as [[l [c v]]|].
    + exists (Some (l, (c, v))), s, (electrons c). assert (I0 := I). destruct I0 as (_ & _ & _ & _ & _ & _ & _ & _ & _ & _ & [E|E]); [congruence|]. rewrite E in D. injection D as <-. cj. now left.
    + exists None, s, 0%Q. assert (I0 := I). destruct I0 as (_ & _ & _ & _ & _ & _ & _ & _ & _ & _ & _ & _ & [E|(N & E)]); [congruence|]. rewrite E in D. injection D as <-. cj; [split; auto|now left].
  - destruct (epf_read _ _ I) as (R' & s' & e & E & X & I' & S & G). exists R', (set_formula _ _ _ (c_epf s') (Some (r10 w e / factor w)%Q) s'), e.
    split; [|split; [exact X|split; [|split; [exact S|exact G]]]].
    + erewrite bind_ok; [|rewrite (if_not _ _ _ D), (bind_ok _ _ _ _ _ E), bind_read; reflexivity]. erewrite bind_ok by (apply need_ok; reflexivity). reflexivity.
    + destruct R' as [[l [c v]]|].
      * destruct I' as (A & Z & P & L & J1 & J2 & J3 & J4 & J5 & J6 & J7). unfold inv. cbn [c_zero c_planes method c_labels c_charges c_volumes c_dims c_cuts c_dim c_min c_avg c_epf c_eprf set_formula].
        repeat (split; auto). right. cbn in X. now subst e.
      * destruct I' as (A & Z & P & L & J1 & J2 & J3 & J4 & J5 & J6 & J7 & J8 & J9). unfold inv. cbn [c_zero c_planes method c_labels c_charges c_volumes c_dims c_cuts c_dim c_min c_avg c_epf c_eprf set_formula].
        destruct X as [N ->]. repeat (split; auto).
Qed.
Lemma electrons_all R r e : electrons_of R e -> R = None \/ R = Some r -> e = electrons (fst (snd r)).
Proof. intros X [-> | ->]; [destruct X as [N ->]|exact X]. unfold electrons. now rewrite N. Qed.
Lemma get_ok g s : answers g s (get w g).
Proof.
  intros R I. destruct g; unfold get, answered.
  - destruct (charges_ok _ _ I) as (r & s' & E & I' & S & G). eexists _, s', (Some r). rewrite (bind_ok _ _ _ _ _ E). split; [reflexivity|]; cj; [apply (grown_all _ _ _ _ G); now destruct r as [? []]|discriminate].
  - destruct (volumes_ok _ _ I) as (r & s' & E & I' & S & G). eexists _, s', (Some r). rewrite (bind_ok _ _ _ _ _ E). split; [reflexivity|]; cj; [apply (grown_all _ _ _ _ G); now destruct r as [? []]|discriminate].
  - destruct (labels_ok _ _ I) as (r & s' & E & I' & S & G). eexists _, s', (Some r). rewrite (bind_ok _ _ _ _ _ E). split; [reflexivity|]; cj; [apply (grown_all _ _ _ _ G); now destruct r as [? []]|discriminate].
  - destruct (planes_ok _ _ I) as (p & s' & E & I' & S & G). eexists _, s', R. rewrite (bind_ok _ _ _ _ _ E). split; [reflexivity|]; cj; [now left|intros [? []] _; exact Logic.I|]. intros _. unfold planes_answer.
    destruct (method s); [now subst p|]. destruct G as (m' & p' & A & Ep & ->). exists m', p'. auto.
  - destruct (dims_read _ _ I) as (r & s' & x & d & q & E & Ed & I' & S & G & _). eexists _, s', (Some r). rewrite (bind_ok _ _ _ _ _ E). split; [reflexivity|]; cj; [ |discriminate].
    apply (grown_all _ _ _ _ G). destruct r as [? []]. exists (x :: d), q. auto.
  - destruct (cuts_read _ _ I) as (r & s' & x & d & q & E & Ed & I' & S & G). eexists _, s', (Some r). rewrite (bind_ok _ _ _ _ _ E). split; [reflexivity|]; cj; [ |discriminate].
    apply (grown_all _ _ _ _ G). destruct r as [? []]. exists (x :: d), q. auto.
  - destruct (dim_read _ _ I) as (r & s' & x & d & q & E & Ed & I' & S & G). eexists _, s', (Some r). rewrite (bind_ok _ _ _ _ _ E). split; [reflexivity|]; cj; [ |discriminate].
    apply (grown_all _ _ _ _ G). destruct r as [? []]. exists x, d, q. auto.
  - destruct (min_read _ _ I) as (r & s' & a & b & E & Ed & I' & S & G). eexists _, s', (Some r). rewrite (bind_ok _ _ _ _ _ E). split; [reflexivity|]; cj; [ |discriminate].
    apply (grown_all _ _ _ _ G). destruct r as [? []]. exists a, b. auto.
  - destruct (avg_read _ _ I) as (r & s' & a & b & E & Ed & I' & S & G). eexists _, s', (Some r). rewrite (bind_ok _ _ _ _ _ E). split; [reflexivity|]; cj; [ |discriminate].
    apply (grown_all _ _ _ _ G). destruct r as [? []]. exists a, b. auto.
  - destruct (epf_read _ _ I) as (R' & s' & e & E & X & I' & S & G). eexists _, s', R'. rewrite (bind_ok _ _ _ _ _ E). split; [reflexivity|]; cj; [ |discriminate].
    intros r H. assert (Y := electrons_all _ _ _ X H). destruct r as [? []]. cbn in Y |- *. now rewrite Y.
  - destruct (eprf_read _ _ I) as (R' & s' & e & E & X & I' & S & G). eexists _, s', R'. rewrite (bind_ok _ _ _ _ _ E). split; [reflexivity|]; cj; [ |discriminate].
    intros r H. assert (Y := electrons_all _ _ _ X H). destruct r as [? []]. cbn in Y |- *. now rewrite Y.
  - destruct (volumes_ok _ _ I) as (r & s' & E & I' & S & G). eexists _, s', (Some r). unfold total_volume. erewrite bind_ok by (rewrite (bind_ok _ _ _ _ _ E); reflexivity). split; [reflexivity|]; cj; [apply (grown_all _ _ _ _ G); now destruct r as [? []]|discriminate].
  - destruct (charges_ok _ _ I) as (r & s' & E & I' & S & G). eexists _, s', (Some r). unfold total_electron_number. erewrite bind_ok by (rewrite (bind_ok _ _ _ _ _ E); reflexivity). split; [reflexivity|]; cj; [apply (grown_all _ _ _ _ G); now destruct r as [? []]|discriminate].
Qed.

(** ** Histories *)
Definition listens (h : list (event Split)) : Prop := forall m, In (SetMethod (Planar m)) h -> allowed m.
Lemma set_inv m sp R s : (forall m', m = Planar m' -> allowed m') -> inv R s -> inv R (set_settings _ _ _ m sp s).
Proof. intros A (_ & I). split; [exact A|exact I]. Qed.
Lemma run_ok : forall h R s, inv R s -> listens h -> exists R',
  inv R' (snd (run w h s)) /\ (forall r, R = Some r -> R' = Some r) /\
  (forall r, R = None -> R' = Some r -> exists k, (k < length h)%nat /\ possible (snd (run w (firstn k h) s)) r) /\
  forall r i g, R' = None \/ R' = Some r -> nth_error h i = Some (Get g) -> exists a, nth_error (fst (run w h s)) i = Some (Some (Some a)) /\ belongs r g a /\
    (g = GPlanes -> planes_answer (snd (run w (firstn i h) s)) a).
Proof.
  induction h as [|e h IH]; intros R s I L.
  - exists R. split; [exact I|]. split; [auto|]. split; [intros; congruence|]. intros r [|i] g _ E; discriminate E.
  - assert (L' : listens h) by (intros m H; apply L; now right).
    assert (X : exists R1 s1, snd (step w e s) = s1 /\ inv R1 s1 /\ grown s R R1 /\ forall g, e = Get g -> exists a, fst (step w e s) = Some (Some a) /\ (forall r, R1 = None \/ R1 = Some r -> belongs r g a) /\ (g = GPlanes -> planes_answer s a)).
    { destruct e as [g|m|sp].
      - destruct (get_ok g s R I) as (a & s' & R' & E & I' & S & G & B & Pl). exists R', s'. cbn [step]. rewrite E. split; auto. split; auto. split; auto. intros g' E'. injection E' as <-. exists a. auto.
      - exists R. eexists. split; [reflexivity|]. split; [|split; [now left|discriminate]]. apply set_inv; auto. intros m' ->. apply L. now left.
      - exists R. eexists. split; [reflexivity|]. split; [|split; [now left|discriminate]]. apply set_inv; auto. apply I. }
    destruct X as (R1 & s1 & E1 & I1 & G1 & A1). destruct (IH R1 s1 I1 L') as (R' & I' & Keep & Orig & Ans). exists R'.
    cbn [run]. destruct (step w e s) as [o s1'] eqn:Es. cbn [snd] in E1. subst s1'. destruct (run w h s1) as [b s2] eqn:Er. cbn [fst snd] in *.
    split; [exact I'|]. split; [|split].
    + intros r ->. destruct G1 as [->|(H & _)]; [auto|discriminate].
    + intros r -> E. destruct G1 as [->|(_ & r1 & -> & P1)].
      * destruct (Orig r eq_refl E) as (k & K & P). exists (S k). split; [cbn; lia|]. cbn [firstn run]. rewrite Es. destruct (run w (firstn k h) s1) as [? s3]. exact P.
      * rewrite (Keep r1 eq_refl) in E. injection E as <-. exists 0%nat. split; [cbn; lia|]. exact P1.
    + intros r [|i] g H N.
      * injection N as ->. destruct (A1 g eq_refl) as (a & Ea & B & Pl). cbn in Ea. subst o. exists a. split; [reflexivity|]. split; [|exact Pl]. apply B.
        destruct R1 as [r1|]; auto. right. destruct H as [H|H]; rewrite (Keep r1 eq_refl) in H; congruence.
      * cbn in N. destruct (Ans r i g H N) as (a & Ea & B & Pl). exists a. split; [exact Ea|]. split; [exact B|]. intros Eg. cbn [firstn run]. rewrite Es. specialize (Pl Eg).
        destruct (run w (firstn i h) s1) as [? s3]. exact Pl.
Qed.
Lemma new_inv m sp : (forall m', m = Planar m' -> allowed m') -> inv None (new_object m sp).
Proof. intros A. split; [exact A|]. cbn. repeat split; auto. Qed.
End Object.

(** ** C261: the answers do not depend on what was read before *)
(** The method whose planes are used. *)
Definition own (m : how) : meth := match m with ZeroFlux => Badelf | Planar m => m end.
Definition reads {Split} (gs : list getter) : list (event Split) := map Get gs.
Definition planes_for {Labels Planes Split} (w : world Labels Planes Split) (m : how) (a : answer Labels Planes) : Prop :=
  match m with ZeroFlux => a = APlanes None | Planar m => exists p, planes_of w m = Some p /\ a = APlanes (Some p) end.
Lemma assigned_one {Labels Planes Split} (w : world Labels Planes Split) m sp m' r r' : assigned w m sp m' r -> assigned w m sp m' r' -> r = r'.
Proof.
  intros (z & Z & H) (z' & Z' & H'). rewrite Z in Z'. injection Z' as <-. destruct m as [|m].
  - destruct H as [<- E], H' as [H' E']. rewrite E in E'. injection E' as E'. destruct r, r'. cbn in *. congruence.
  - destruct H as (p & P & E), H' as (p' & P' & E'). rewrite P in P'. injection P' as <-. congruence.
Qed.
Lemma works_assigned {Labels Planes Split} (w : world Labels Planes Split) m sp m' : works w -> exists r, assigned w m sp m' r.
Proof.
  intros (Wz & Wp & Wc & Wa & _). destruct (zero_flux w) as [z|] eqn:Z; [|tauto]. destruct m as [|m].
  - destruct (zf_charges w sp) as [r|] eqn:E; [|now elim (Wc sp)]. exists (z, r), z. auto.
  - destruct (planes_of w m') as [p|] eqn:P; [|now elim (Wp m')]. destruct (assign w m p z) as [r|] eqn:E; [|now elim (Wa m p z)]. exists r, z. split; auto. exists p. auto.
Qed.
Lemma run_reads_settings {Labels Planes Split} (w : world Labels Planes Split) (W : works w) allowed gs : forall R s, inv w allowed R s -> same_settings s (snd (run w (reads gs) s)).
Proof.
  induction gs as [|g gs IH]; intros R s I; [split; reflexivity|]. destruct (get_ok w W allowed g s R I) as (a & s' & R' & E & I' & S & _). cbn [reads map run step]. rewrite E.
  specialize (IH R' s' I'). fold (@reads Split gs). destruct (run w (reads gs) s') as [b s2]. cbn in *. eapply same_trans; eauto.
Qed.
Lemma firstn_reads {Split} k gs : firstn k (@reads Split gs) = reads (firstn k gs).
Proof. unfold reads. apply firstn_map. Qed.
Theorem C261_order : forall {Labels Planes Split} (w : world Labels Planes Split) m sp gs r i g, works w -> assigned w m sp (own m) r -> nth_error gs i = Some g ->
  exists a, nth_error (fst (run w (reads gs) (new_object m sp))) i = Some (Some (Some a)) /\ belongs w r g a /\ (g = GPlanes -> planes_for w m a).
Proof.
  intros Labels Planes Split w m sp gs r i g W Hr N.
  set (al := fun m' => m = Planar m').
  assert (I : inv w al None (new_object m sp)) by (apply new_inv; auto).
  assert (L : listens al (@reads Split gs)). { intros m' H. exfalso. unfold reads in H. apply in_map_iff in H. destruct H as (? & ? & _). discriminate. }
  destruct (run_ok w W al (reads gs) None _ I L) as (R' & _ & _ & Orig & Ans).
  assert (HR : R' = None \/ R' = Some r).
  { destruct R' as [r'|]; auto. right. f_equal. destruct (Orig r' eq_refl eq_refl) as (k & _ & m' & Al & As). rewrite firstn_reads in As, Al.
    destruct (run_reads_settings w W al (firstn k gs) None _ I) as [Em Es]. rewrite Em in As, Al. rewrite Es in As. cbn in As, Al.
    assert (As' : assigned w m sp (own m) r'). { clear - As Al. unfold al in Al. destruct Al as [E|E]; rewrite E in *; exact As. } exact (assigned_one _ _ _ _ _ _ As' Hr). }
  assert (N' : nth_error (@reads Split gs) i = Some (Get g)) by (unfold reads; now apply map_nth_error).
  destruct (Ans r i g HR N') as (a & Ea & B & Pl). exists a. split; auto. split; auto. intros Eg. specialize (Pl Eg). unfold planes_answer in Pl. rewrite firstn_reads in Pl.
  destruct (run_reads_settings w W al (firstn i gs) None _ I) as [Em Es]. rewrite Em in Pl. cbn in Pl. unfold planes_for. destruct m as [|m]; auto. destruct Pl as (m' & p & Am & P & E). unfold al in Am. injection Am as <-. exists p. auto.
Qed.
Print Assumptions C261_order.
(** Settings assigned before the first read count as those of a new object. *)
Theorem C261_settings : forall {Labels Planes Split} (w : world Labels Planes Split) m sp sets, (forall g, ~ In (Get g) sets) ->
  exists m' sp', snd (run w sets (new_object m sp)) = new_object m' sp' /\
    m' = fold_left (fun m e => match e with SetMethod m' => m' | _ => m end) sets m /\ sp' = fold_left (fun sp e => match e with SetSplit sp' => sp' | _ => sp end) sets sp.
Proof.
  intros Labels Planes Split w m sp sets. revert m sp. induction sets as [|e sets IH]; intros m sp H; [exists m, sp; auto|].
  assert (H' : forall g, ~ In (Get g) sets) by (intros g K; apply (H g); now right).
  destruct e as [g|m1|sp1]; [now elim (H g); left| |]; cbn [run step fold_left];
    [change (set_settings _ _ _ m1 (split (new_object m sp)) (new_object m sp)) with (@new_object Labels Planes Split m1 sp); destruct (IH m1 sp H') as (m' & sp' & E & F)
    |change (set_settings _ _ _ (method (new_object m sp)) sp1 (new_object m sp)) with (@new_object Labels Planes Split m sp1); destruct (IH m sp1 H') as (m' & sp' & E & F)];
    exists m', sp'; destruct (run w sets _) as [b s2]; cbn in *; auto.
Qed.
Print Assumptions C261_settings.

(** ** C262: all answers come from one assignment *)
Theorem C262_one : forall {Labels Planes Split} (w : world Labels Planes Split) m sp h, works w ->
  exists k m' r, (k <= length h)%nat /\ (m = Planar m' \/ In (SetMethod (Planar m')) h \/ method (snd (run w (firstn k h) (new_object m sp))) = ZeroFlux) /\
    assigned w (method (snd (run w (firstn k h) (new_object m sp)))) (split (snd (run w (firstn k h) (new_object m sp)))) m' r /\
    forall i g, nth_error h i = Some (Get g) -> exists a, nth_error (fst (run w h (new_object m sp))) i = Some (Some (Some a)) /\ belongs w r g a.
Proof.
  intros Labels Planes Split w m sp h W. set (al := fun m' => m = Planar m' \/ In (SetMethod (Planar m')) h).
  assert (I : inv w al None (new_object m sp)) by (apply new_inv; intros m' ->; now left). assert (L : listens al h) by (intros m' H; now right).
  destruct (run_ok w W al h None _ I L) as (R' & _ & _ & Orig & Ans). destruct R' as [r|].
  - destruct (Orig r eq_refl eq_refl) as (k & K & m' & Al & As). exists k, m', r. split; [lia|]. split; [destruct Al as [Al|[Al|Al]]; auto|]. split; auto.
    intros i g N. destruct (Ans r i g (or_intror eq_refl) N) as (a & E & B & _). exists a. auto.
  - destruct (works_assigned w m sp (own m) W) as (r & As). exists 0%nat, (own m), r. cbn [firstn run snd]. split; [lia|]. split; [destruct m; auto|]. split; [exact As|].
    intros i g N. destruct (Ans r i g (or_introl eq_refl) N) as (a & E & B & _). exists a. auto.
Qed.
Print Assumptions C262_one.

(** ** C265: charges and volumes when something fails *)
Section Failing.
Context {Labels Planes Split : Type}.
Variable w : world Labels Planes Split.
Variables (m : how) (sp : Split).
(** Charges and volumes for these settings, if they can be computed. *)
Definition charges_for : option (list Q * list Q) :=
  match m with
  | ZeroFlux => match zero_flux w with Some _ => zf_charges w sp | None => None end
  | Planar m => match planes_of w m, zero_flux w with Some p, Some z => option_map snd (assign w m p z) | _, _ => None end
  end.
Definition kept (s : state Labels Planes Split) : Prop :=
  method s = m /\ split s = sp /\ (c_zero s = None \/ c_zero s = zero_flux w) /\ (c_planes s = None \/ exists m', m = Planar m' /\ c_planes s = planes_of w m') /\
  (c_charges s = None /\ c_volumes s = None \/ exists c v, charges_for = Some (c, v) /\ c_charges s = Some c /\ c_volumes s = Some v).
Definition keeps {A} (x : M _ _ _ A) : Prop := forall s, kept s -> kept (snd (x s)).
Lemma keeps_bind {A B} (x : M _ _ _ A) (k : A -> M _ _ _ B) : keeps x -> (forall a, keeps (k a)) -> keeps (bind x k).
Proof. intros X K s H. unfold bind. specialize (X s H). destruct (x s) as [[a|] s']; cbn in *; auto. now apply K. Qed.
Lemma keeps_ret {A} (a : A) : keeps (ret a). Proof. intros s H. exact H. Qed.
Lemma keeps_raise {A} : keeps (@raise Labels Planes Split A). Proof. intros s H. exact H. Qed.
Lemma keeps_read {A} (f : _ -> A) : keeps (read f). Proof. intros s H. exact H. Qed.
Lemma keeps_opt {A} (o : option A) : keeps (of_option o). Proof. destruct o; [apply keeps_ret|apply keeps_raise]. Qed.
Lemma keeps_unset {A} (f : _ -> option A) x : keeps x -> keeps (if_unset f x).
Proof. intros X. apply keeps_bind; [apply keeps_read|]. intros [a|]; [apply keeps_ret|exact X]. Qed.
Lemma keeps_need {A} (f : _ -> option A) : keeps (need f).
Proof. apply keeps_bind; [apply keeps_read|]. intros o. apply keeps_opt. Qed.
(** The assignment: fills the charges or raises. *)
Lemma voxels_kept s : kept s -> c_charges s = None -> fst (get_voxel_assignments _ _ _ w s) = option_map (fun _ => tt) charges_for /\ kept (snd (get_voxel_assignments _ _ _ w s)) /\
  forall c v, charges_for = Some (c, v) -> c_charges (snd (get_voxel_assignments _ _ _ w s)) = Some c /\ c_volumes (snd (get_voxel_assignments _ _ _ w s)) = Some v.
Proof.
  intros (Em & Es & Z & P & C) N. destruct s as [m0 sp0 pl z l ch v ds cs di mi av e1 e2]. cbn in *. subst m0 sp0 ch. destruct C as [(_ & ->)|(c & v' & _ & C & _)]; [|discriminate].
  unfold get_voxel_assignments, partitioning_planes, zero_flux_labels, if_unset, need, bind, read, modify, of_option, ret, raise, kept, charges_for.
  destruct m as [|m1].
  - destruct Z as [-> | ->]; destruct (zero_flux w) as [z0|] eqn:Ez; cbn; try rewrite Ez; cbn; try (destruct (zf_charges w sp) as [[c v]|] eqn:Ec); cbn; repeat split; auto; try discriminate;
      try (intros; congruence); try (right; exists c, v; auto); try (match goal with H : Some _ = Some _ |- _ => injection H as <- <- end; reflexivity).
  - assert (P' : pl = None \/ pl = planes_of w m1) by (destruct P as [P|(m' & E & P)]; auto; injection E as <-; auto). clear P.
    destruct P' as [-> | ->], Z as [-> | ->]; destruct (planes_of w m1) as [p0|] eqn:Ep, (zero_flux w) as [z0|] eqn:Ez; cbn; try rewrite Ep; try rewrite Ez; cbn; try (destruct (assign w m1 p0 z0) as [[l0 [c v]]|] eqn:Ec); cbn; repeat split; auto; try discriminate;
      try (intros; congruence); try (right; exists m1; auto); try (right; exists c, v; auto); try (match goal with H : Some _ = Some _ |- _ => injection H as <- <- end; reflexivity).
Qed.
Lemma filled_kept {A} (f : _ -> option A) (pick : list Q * list Q -> A) s : kept s ->
  (forall s, kept s -> c_charges s = None -> f s = None) -> (forall s c v, c_charges s = Some c -> c_volumes s = Some v -> f s = Some (pick (c, v))) ->
  kept (snd (if_unset f (get_voxel_assignments _ _ _ w) s)) /\
  match charges_for with
  | Some cv => fst (if_unset f (get_voxel_assignments _ _ _ w) s) = Some tt /\ f (snd (if_unset f (get_voxel_assignments _ _ _ w) s)) = Some (pick cv)
  | None => fst (if_unset f (get_voxel_assignments _ _ _ w) s) = None
  end.
Proof.
  intros K N V. destruct (c_charges s) as [c|] eqn:C.
  - assert (K0 := K). destruct K0 as (_ & _ & _ & _ & [(C' & _)|(c' & v & E & C' & V')]); [congruence|]. rewrite E, (if_set f _ s (pick (c', v))) by (now apply V). cbn. split; auto.
  - rewrite (if_not f _ s) by (now apply N). destruct (voxels_kept s K C) as (E & K' & F). split; auto. destruct charges_for as [[c v]|]; auto. split; auto. destruct (F c v eq_refl). now apply V.
Qed.
Lemma charges_kept s : kept s -> fst (charges _ _ _ w s) = option_map (fun cv => map (r10 w) (fst cv)) charges_for /\ kept (snd (charges _ _ _ w s)).
Proof.
  intros K. destruct (filled_kept c_charges fst s K) as (K' & E); [auto|auto|]. unfold charges, bind. destruct (if_unset c_charges (get_voxel_assignments _ _ _ w) s) as [o s'] eqn:X. cbn in *.
  destruct charges_for as [cv|]; cbn.
  - destruct E as (-> & E). unfold need, bind, read. rewrite E. cbn. auto.
  - subst o. auto.
Qed.
Lemma volumes_kept s : kept s -> fst (volumes _ _ _ w s) = option_map (fun cv => map (r10 w) (snd cv)) charges_for /\ kept (snd (volumes _ _ _ w s)).
Proof.
  intros K. destruct (filled_kept c_volumes snd s K) as (K' & E); [|auto|].
  { intros s0 (_ & _ & _ & _ & [(_ & V)|(c & v & _ & C & _)]) N; congruence. }
  unfold volumes, bind. destruct (if_unset c_volumes (get_voxel_assignments _ _ _ w) s) as [o s'] eqn:X. cbn in *.
  destruct charges_for as [cv|]; cbn.
  - destruct E as (-> & E). unfold need, bind, read. rewrite E. cbn. auto.
  - subst o. auto.
Qed.
Lemma keeps_charges : keeps (charges _ _ _ w). Proof. intros s K. now apply charges_kept. Qed.
Lemma keeps_volumes : keeps (volumes _ _ _ w). Proof. intros s K. now apply volumes_kept. Qed.
(** The labels may be stored although the charges are not: the assignment is then not repeated. *)
Lemma keeps_labels : keeps (atom_labels _ _ _ w).
Proof.
  apply keeps_bind; [|intros; apply keeps_need]. apply keeps_bind; [apply keeps_read|]. intros [l|]; [apply keeps_ret|]. intros s K. destruct (c_charges s) as [c|] eqn:C; [|now apply voxels_kept].
  (* a second assignment with the same settings *)
  assert (K0 := K). destruct K0 as (Em & Es & Z & P & [(C' & _)|(c' & v & E & C' & V')]); [congruence|].
  destruct s as [m0 sp0 pl z l ch v0 ds cs di mi av e1 e2]. cbn in *. subst m0 sp0. unfold charges_for in E.
  unfold get_voxel_assignments, partitioning_planes, zero_flux_labels, if_unset, need, bind, read, modify, of_option, ret, raise, kept, charges_for.
  destruct m as [|m1].
  - destruct (zero_flux w) as [z0|] eqn:Ez; [|discriminate]. destruct Z as [-> | ->]; cbn; try rewrite Ez; cbn; rewrite E; cbn; repeat split; auto; right; exists c', v; auto.
  - assert (P' : pl = None \/ pl = planes_of w m1) by (destruct P as [P|(m' & X & P)]; auto; injection X as <-; auto). clear P.
    destruct (planes_of w m1) as [p0|] eqn:Ep; [|discriminate]. destruct (zero_flux w) as [z0|] eqn:Ez; [|discriminate]. destruct (assign w m1 p0 z0) as [[l0 [c0 v1]]|] eqn:Ec; [|discriminate]. cbn in E. injection E as <- <-.
    destruct P' as [-> | ->], Z as [-> | ->]; cbn; try rewrite Ep; try rewrite Ez; cbn; rewrite Ec; cbn; repeat split; auto; try (right; exists m1; auto); right; exists c0, v1; auto.
Qed.
Lemma keeps_planes : keeps (partitioning_planes _ _ _ w).
Proof.
  intros s K. assert (K0 := K). destruct K0 as (Em & _). unfold partitioning_planes. rewrite bind_read, Em. destruct m as [|m1]; [exact K|].
  unfold if_unset, bind, read, ret. destruct (c_planes s) as [p|] eqn:P; [exact K|]. unfold of_option, raise. destruct (planes_of w m1) as [p|] eqn:Ep; [|exact K]. cbn.
  destruct K as (K1 & K2 & K3 & _ & K5). unfold kept. cbn. repeat (split; auto). right. exists m1. split; congruence.
Qed.
Ltac kp := repeat first [apply keeps_charges|apply keeps_volumes|apply keeps_labels|apply keeps_planes|apply keeps_ret|apply keeps_raise|apply keeps_read|apply keeps_opt|apply keeps_need|apply keeps_unset|apply keeps_bind|intros ?].
Lemma keeps_dims d c : keeps (modify (set_dims _ _ _ d c)). Proof. intros s K. exact K. Qed.
Lemma keeps_dim d : keeps (modify (set_dim _ _ _ d)). Proof. intros s K. exact K. Qed.
Lemma keeps_dists d c : keeps (modify (set_dists _ _ _ d c)). Proof. intros s K. exact K. Qed.
Lemma keeps_formula d c : keeps (modify (set_formula _ _ _ d c)). Proof. intros s K. exact K. Qed.
Lemma keeps_dimensionality : keeps (get_electride_dimensionality _ _ _ w).
Proof. unfold get_electride_dimensionality. apply keeps_bind; [destruct (Nat.eqb _ 0); [apply keeps_dims|apply keeps_ret]|]. intros _. apply keeps_bind; [apply keeps_labels|]. intros l. apply keeps_bind; [apply keeps_opt|]. intros [d c]. apply keeps_dims. Qed.
Lemma keeps_surface : keeps (get_min_avg_surface_dists _ _ _ w).
Proof. unfold get_min_avg_surface_dists. apply keeps_bind; [apply keeps_labels|]. intros l. apply keeps_bind; [apply keeps_opt|]. intros [d c]. apply keeps_dists. Qed.
Lemma keeps_all_dims : keeps (all_electride_dims _ _ _ w).
Proof. unfold all_electride_dims. apply keeps_bind; [apply keeps_unset, keeps_dimensionality|]. kp. Qed.
Lemma keeps_sum : forall n i acc, keeps (sum_sites _ _ _ w n i acc).
Proof. induction n as [|n IH]; intros i acc; [apply keeps_ret|]. cbn [sum_sites]. apply keeps_bind; [apply keeps_charges|]. intros c. apply keeps_bind; [apply keeps_opt|]. intros x. apply IH. Qed.
Lemma keeps_epf : keeps (electrides_per_formula _ _ _ w).
Proof. unfold electrides_per_formula. apply keeps_bind; [apply keeps_unset, keeps_bind; [apply keeps_sum|intros e; apply keeps_bind; [apply keeps_read|intros o; apply keeps_formula]]|]. kp. Qed.
Lemma keeps_get g : keeps (get w g).
Proof.
  destruct g; unfold get, answered; (apply keeps_bind; [|intros; apply keeps_ret]); try (kp; fail).
  - apply keeps_all_dims.
  - unfold all_electride_dim_cutoffs. apply keeps_bind; [apply keeps_unset, keeps_dimensionality|]. kp.
  - unfold electride_dimensionality. apply keeps_bind; [apply keeps_unset, keeps_bind; [apply keeps_all_dims|]|kp]. intros [d|]; [|apply keeps_ret]. apply keeps_bind; [apply keeps_opt|]. intros x. apply keeps_dim.
  - unfold min_surface_distances. apply keeps_bind; [apply keeps_unset, keeps_surface|]. kp.
  - unfold avg_surface_distances. apply keeps_bind; [apply keeps_unset, keeps_surface|]. kp.
  - apply keeps_epf.
  - unfold electrides_per_reduced_formula. apply keeps_bind; [apply keeps_unset, keeps_bind; [apply keeps_epf|intros e; apply keeps_bind; [apply keeps_read|intros o; apply keeps_formula]]|]. kp.
Qed.
End Failing.
(** What the four getters give or that they raise. *)
Definition charge_answer {Labels Planes Split} (w : world Labels Planes Split) (g : getter) (cv : list Q * list Q) : option (answer Labels Planes) :=
  match g with
  | GCharges => Some (ANumbers (map (r10 w) (fst cv)))
  | GVolumes => Some (ANumbers (map (r10 w) (snd cv)))
  | GElectrons => Some (ANumber (r10 w (fold_right Qplus 0 (map (r10 w) (fst cv)) + vac_charge w)))
  | GVolume => Some (ANumber (r10 w (fold_right Qplus 0 (map (r10 w) (snd cv)) + vac_volume w)))
  | _ => None
  end%Q.
Theorem C265_failing : forall {Labels Planes Split} (w : world Labels Planes Split) m sp gs i g, nth_error gs i = Some g -> In g [GCharges; GVolumes; GElectrons; GVolume] ->
  nth_error (fst (run w (reads gs) (new_object m sp))) i = Some (Some (match charges_for w m sp with Some cv => charge_answer w g cv | None => None end)).
Proof.
  intros Labels Planes Split w m sp gs. assert (K : kept w m sp (new_object m sp)) by (cbn; repeat split; auto). revert K. generalize (@new_object Labels Planes Split m sp). induction gs as [|g0 gs IH]; intros s K [|i] g N G; try discriminate N; cbn in N.
  - injection N as ->. cbn [reads map run step]. destruct (get w g s) as [a s'] eqn:E. destruct (run w (map Get gs) s') as [b s2]. cbn [fst nth_error]. do 2 f_equal.
    change a with (fst (a, s')). rewrite <- E. clear E. destruct (charges_kept w m sp s K) as [Ec _], (volumes_kept w m sp s K) as [Ev _].
    destruct G as [<-|[<-|[<-|[<-|[]]]]]; unfold get, answered, total_volume, total_electron_number, bind;
      [destruct (charges _ _ _ w s) as [o s3]; cbn in Ec; subst o|destruct (volumes _ _ _ w s) as [o s3]; cbn in Ev; subst o|destruct (charges _ _ _ w s) as [o s3]; cbn in Ec; subst o|destruct (volumes _ _ _ w s) as [o s3]; cbn in Ev; subst o];
      destruct (charges_for w m sp) as [[c v]|]; reflexivity.
  - cbn [reads map run step]. destruct (get w g0 s) as [a s'] eqn:E. assert (K' : kept w m sp s') by (change s' with (snd (a, s')); rewrite <- E; now apply keeps_get).
    specialize (IH s' K' i g N G). unfold reads in IH. destruct (run w (map Get gs) s') as [b s2]. exact IH.
Qed.
Print Assumptions C265_failing.

(** ** Examples *)
Local Open Scope Q_scope.
Definition w_ex : world (list nat) nat bool := {|
  zero_flux := Some [0; 1; 1]%nat;
  planes_of := fun m => Some (match m with Badelf => 5 | Voronelf => 7 end)%nat;
  zf_charges := fun b : bool => Some (if b then ([1; 2], [1; 2]) else ([2; 1], [1; 2]));
  assign := fun m p l => Some (match m with Badelf => p :: l | Voronelf => l ++ [p] end, ([inject_Z (Z.of_nat p); 3], [4; inject_Z (Z.of_nat p)]));
  natoms := 1; nsites := 2;
  dims_of := fun l => Some ([length l; 1]%nat, [1 # 2; 1 # 4]);
  dists_of := fun l => Some ([1], [2]);
  factor := 2; vac_charge := 1; vac_volume := 2; r10 := fun x => x |}.
Lemma w_ex_works : works w_ex.
Proof.
  repeat split; try discriminate.
  - intros l. exists (length l), [1%nat], [1 # 2; 1 # 4]. reflexivity.
  - intros [] c v E; injection E as <- <-; cbn; lia.
  - intros m p z l c v E. injection E as _ <- _. cbn. lia.
Qed.
Example C261_ex : fst (run w_ex (reads [GReduced; GDim; GPlanes; GCharges; GElectrons]) (new_object (Planar Badelf) true)) =
  map (fun a => Some (Some a)) [ANumber (3 / 2); ADim (Some 4%nat); APlanes (Some 5%nat); ANumbers [5; 3]; ANumber 9].
Proof. vm_compute. reflexivity. Qed.
Example C261_ex_assigned : assigned w_ex (Planar Badelf) true (own (Planar Badelf)) ([5; 0; 1; 1]%nat, ([5; 3], [4; 5])).
Proof. exists [0; 1; 1]%nat. split; [reflexivity|]. exists 5%nat. split; reflexivity. Qed.
(** After the first read the later settings no longer matter. *)
Example C262_ex : fst (run w_ex [SetMethod ZeroFlux; Get GLabels; SetSplit false; SetMethod (Planar Voronelf); Get GPlanes; Get GCharges; Get GDim] (new_object (Planar Badelf) true)) =
  [None; Some (Some (ALabels [0; 1; 1]%nat)); None; None; Some (Some (APlanes (Some 7%nat))); Some (Some (ANumbers [1; 2])); Some (Some (ADim (Some 3%nat)))].
Proof. vm_compute. reflexivity. Qed.

(** ** C263 (refuted): an assigned method acts as that of a new object *)
Theorem C263_method_refuted : exists (w : world (list nat) nat bool) m m' sp, works w /\
  nth_error (fst (run w [Get GCharges; SetMethod m'; Get GCharges] (new_object m sp))) 2 <> nth_error (fst (run w [Get GCharges] (new_object m' sp))) 0 /\
  nth_error (fst (run w [Get GPlanes; SetMethod m'; Get GCharges] (new_object m sp))) 2 <> nth_error (fst (run w [Get GCharges] (new_object m' sp))) 0 /\
  nth_error (fst (run w [Get GPlanes; SetMethod m'; Get GLabels] (new_object m sp))) 2 <> nth_error (fst (run w [Get GLabels] (new_object m' sp))) 0 /\
  nth_error (fst (run w [Get GPlanes; SetMethod m'; Get GLabels] (new_object m sp))) 2 <> nth_error (fst (run w [Get GLabels] (new_object m sp))) 0.
Proof. exists w_ex, (Planar Badelf), (Planar Voronelf), true. split; [apply w_ex_works|]. vm_compute. repeat split; discriminate. Qed.
Print Assumptions C263_method_refuted.

(** ** C264 (refuted): what raised once raises again *)
(** No electrides, no charges. *)
Definition w_bad : world (list nat) nat bool := {|
  zero_flux := Some [0; 1]%nat; planes_of := fun _ => Some 1%nat; zf_charges := fun _ => None; assign := fun _ _ _ => None; natoms := 2; nsites := 2;
  dims_of := fun _ => Some ([3]%nat, [1]); dists_of := fun _ => Some ([1], [2]); factor := 1; vac_charge := 0; vac_volume := 0; r10 := fun x => x |}.
Theorem C264_again_refuted : exists w : world (list nat) nat bool,
  fst (run w (reads [GDims; GDims; GCuts; GDim]) (new_object (Planar Badelf) true)) = [Some None; Some (Some (ADims None)); Some (Some (ACuts None)); Some (Some (ADim None))] /\
  fst (run w (reads [GLabels; GLabels; GCharges]) (new_object ZeroFlux true)) = [Some None; Some (Some (ALabels [0; 1]%nat)); Some None].
Proof. exists w_bad. vm_compute. split; reflexivity. Qed.
Print Assumptions C264_again_refuted.

(** The charges raise before and after the labels have become readable. *)
Example C265_ex : fst (run w_bad (reads [GCharges; GLabels; GVolumes; GElectrides; GCharges]) (new_object ZeroFlux true)) = [Some None; Some (Some (ALabels [0; 1]%nat)); Some None; Some (Some (ANumber 0)); Some None].
Proof. vm_compute. reflexivity. Qed.
