(** Proofs about merged coordinates and offsets within a radius. *)
From Verif Require Import Base GridModel ChargeModel NearModel SurfaceModel RefineModel CoordModel NearSpec NearProofs InterpProofs RefineProofs CoordProofs.
From Coq Require Import Qround.
Local Open Scope Z_scope.

(** ** Merged coordinates *)
Definition px (v : vec) : Q := fst (fst v).
Definition py (v : vec) : Q := snd (fst v).
Definition pz (v : vec) : Q := snd v.
Definition vsum (l : list vec) : vec := (qsum (map px l), qsum (map py l), qsum (map pz l)).
Definition near1 (a b : Q) : Prop := (-(1#2) < a - b < 1#2)%Q.
Definition near (u v : vec) : Prop := near1 (px u) (px v) /\ near1 (py u) (py v) /\ near1 (pz u) (pz v).
Definition in_cell (v : vec) : Prop := (0 <= px v < 1 /\ 0 <= py v < 1 /\ 0 <= pz v < 1)%Q.
(** A position [u] written with the lattice translation [k]. *)
Definition lift (p : vec * (Z * Z * Z)) : vec := vadd (fst p) (qvec (snd p)).
Definition mean (l : list vec) : vec := vmap (fun t => (t / inject_Z (Z.of_nat (length l)))%Q) (vsum l).
Definition weighted_mean (l : list vec) (w : list Q) : vec :=
  let s := fun p : vec -> Q => (qsum (map (fun uw : vec * Q => (p (fst uw) * snd uw)%Q) (combine l w)) / qsum w)%Q in (s px, s py, s pz).

Lemma nearest_int q k : near1 q (inject_Z k) -> py_round q = k.
Proof.
  intros [H1 H2]. apply (nearest_even_fun q q); [reflexivity|apply py_round_spec|].
  split; [split; lra|]. intros [E|E]; exfalso; lra.
Qed.
Lemma mod1_shift q k : (mod1 (q + inject_Z k) == mod1 q)%Q.
Proof.
  unfold mod1. assert (F : Qfloor (q + inject_Z k) = Qfloor q + k).
  { pose proof (floor_split q) as (m & t & E & T & <-). rewrite (Qfloor_comp (q + inject_Z k) (inject_Z (Qfloor q + k) + t)); [now apply floor_offset|]. rewrite E at 1. rewrite inject_Z_plus. ring. }
  rewrite F, inject_Z_plus. ring.
Qed.
Lemma round_even_shift q k : py_round (q + inject_Z (2 * k)) = py_round q + 2 * k.
Proof.
  destruct (py_round_spec q) as [H1 H2]. apply (nearest_even_fun (q + inject_Z (2 * k)) (q + inject_Z (2 * k))); [reflexivity|apply py_round_spec|].
  unfold nearest_even. rewrite inject_Z_plus.
  assert (E : (q + inject_Z (2 * k) - (inject_Z (py_round q) + inject_Z (2 * k)) == q - inject_Z (py_round q))%Q) by ring.
  rewrite E. split; [exact H1|]. intros H. specialize (H2 H). rewrite Z.even_add, H2, Z.even_mul. reflexivity.
Qed.
Lemma round12_comp p q : (p == q)%Q -> (round12 p == round12 q)%Q.
Proof. intros E. unfold round12. rewrite (py_round_comp (p * inject_Z tera) (q * inject_Z tera)); [reflexivity|now rewrite E]. Qed.
Lemma round12_shift q k : (round12 (q + inject_Z k) == round12 q + inject_Z k)%Q.
Proof.
  unfold round12.
  assert (E : ((q + inject_Z k) * inject_Z tera == q * inject_Z tera + inject_Z (2 * (k * 500000000000)))%Q).
  { replace (2 * (k * 500000000000)) with (k * tera) by (unfold tera; lia). rewrite inject_Z_mult. ring. }
  rewrite (py_round_comp _ _ E), round_even_shift. replace (2 * (k * 500000000000)) with (k * tera) by (unfold tera; lia).
  rewrite inject_Z_plus, inject_Z_mult. field. discriminate.
Qed.
Lemma round12_close q : (-(1#2) <= (round12 q - q) * inject_Z tera <= 1#2)%Q.
Proof.
  unfold round12. destruct (py_round_spec (q * inject_Z tera)) as [H _].
  assert (E : ((inject_Z (py_round (q * inject_Z tera)) / inject_Z tera - q) * inject_Z tera == - (q * inject_Z tera - inject_Z (py_round (q * inject_Z tera))))%Q) by (field; discriminate).
  rewrite E. lra.
Qed.

Lemma unwrap_spec u k u0 k0 : near1 u u0 -> (unwrap (u + inject_Z k) (u0 + inject_Z k0) == u + inject_Z k0)%Q.
Proof.
  intros [H1 H2]. unfold unwrap. rewrite (nearest_int _ (k - k0)).
  - unfold Z.sub. rewrite inject_Z_plus, inject_Z_opp. ring.
  - unfold near1. replace (k - k0) with (k + - k0) by lia. rewrite inject_Z_plus, inject_Z_opp. split; lra.
Qed.
Lemma px_lift u k : px (lift (u, k)) = (px u + inject_Z (fst (fst k)))%Q.
Proof. destruct u as [[? ?] ?], k as [[? ?] ?]. reflexivity. Qed.
Lemma unwrap3_spec u k u0 k0 : near u u0 -> veq (unwrap3 (lift (u0, k0)) (lift (u, k))) (vadd u (qvec k0)).
Proof.
  destruct u as [[x y] z], u0 as [[x0 y0] z0], k as [[a b] c], k0 as [[a0 b0] c0]. intros (H1 & H2 & H3). cbn in *.
  repeat split; apply unwrap_spec; assumption.
Qed.
Lemma fold_vadd {A} (f : A -> vec) l : forall t, veq (fold_left (fun t c => vadd t (f c)) l t) (vadd t (vsum (map f l))).
Proof.
  induction l as [|a l IH]; intros t; cbn [fold_left map].
  - destruct t as [[x y] z]. cbn. repeat split; ring.
  - eapply veq_trans; [apply IH|]. destruct t as [[x y] z]. unfold vsum. cbn [map].
    destruct (f a) as [[p q] r]. cbn [vadd px py pz fst snd veq]. repeat split; rewrite qsum_cons; ring.
Qed.
Lemma vsum_ext {A} (f g : A -> vec) l : (forall a, In a l -> veq (f a) (g a)) -> veq (vsum (map f l)) (vsum (map g l)).
Proof.
  intros H. unfold vsum. rewrite !map_map. cbn.
  assert (K : forall p : vec -> Q, (forall v w, veq v w -> (p v == p w)%Q) -> (qsum (map (fun x => p (f x)) l) == qsum (map (fun x => p (g x)) l))%Q).
  { intros p Hp. apply qsum_map_ext. intros a Ha. apply Hp, H, Ha. }
  repeat split; apply K; intros [[? ?] ?] [[? ?] ?]; cbn; tauto.
Qed.
Lemma qsum_shift {A} (f : A -> Q) k l : (qsum (map (fun a => f a + k) l) == qsum (map f l) + inject_Z (Z.of_nat (length l)) * k)%Q.
Proof.
  induction l as [|a l IH]; [cbn; ring|]. cbn [map length]. rewrite !qsum_cons, IH, Nat2Z.inj_succ. unfold Z.succ. rewrite inject_Z_plus. change (inject_Z 1) with 1%Q. ring.
Qed.
Lemma vmap_comp f v w : (forall p q, p == q -> f p == f q)%Q -> veq v w -> veq (vmap f v) (vmap f w).
Proof. destruct v as [[? ?] ?], w as [[? ?] ?]. cbn. intros H (E1 & E2 & E3). auto. Qed.
Lemma in_cell_mod1 (f : Q -> Q) v : in_cell (vmap (fun t => mod1 (f t)) v).
Proof. destruct v as [[? ?] ?]. unfold in_cell. cbn. repeat split; apply mod1_range. Qed.

Theorem merge_spec (p0 : vec * (Z * Z * Z)) l : (forall p, In p l -> near (fst p) (fst p0)) ->
  exists r, merge_frac_coords (map lift (p0 :: l)) = Some r /\ in_cell r /\
    veq r (vmap (fun q => mod1 (match l with [] => q | _ => round12 q end)) (mean (map fst (p0 :: l)))).
Proof.
  intros H. destruct l as [|p1 l].
  - cbn [map merge_frac_coords]. eexists. split; [reflexivity|]. split; [apply (in_cell_mod1 (fun t => t))|].
    destruct p0 as [[[x y] z] [[a b] c]]. cbn. repeat split; rewrite mod1_shift; apply mod1_comp; field.
  - set (L := p1 :: l) in *. assert (NE : exists q t, L = q :: t) by (unfold L; eauto).
    assert (E : merge_frac_coords (map lift (p0 :: L)) = Some (vmap (fun t => mod1 (round12 (t / inject_Z (Z.of_nat (length (p0 :: L)))))) (fold_left (fun t c => vadd t (unwrap3 (lift p0) c)) (map lift (p0 :: L)) (0, 0, 0)%Q))).
    { unfold merge_frac_coords. cbn [map]. destruct NE as (q & t & ->). cbn [map length]. rewrite map_length. reflexivity. }
    rewrite E. eexists. split; [reflexivity|]. split; [apply (in_cell_mod1 (fun t => round12 (t / _)))|].
    clear E.
    assert (S : veq (fold_left (fun t c => vadd t (unwrap3 (lift p0) c)) (map lift (p0 :: L)) (0, 0, 0)%Q)
                    (vsum (map (fun p => vadd (fst p) (qvec (snd p0))) (p0 :: L)))).
    { eapply veq_trans; [apply fold_vadd|]. rewrite map_map.
      assert (X : veq (vsum (map (fun x => unwrap3 (lift p0) (lift x)) (p0 :: L))) (vsum (map (fun p => vadd (fst p) (qvec (snd p0))) (p0 :: L)))).
      { apply vsum_ext. intros [u k] Hp. destruct p0 as [u0 k0]. apply unwrap3_spec. cbn [fst]. destruct Hp as [[= <- <-]|Hp]; [|exact (H _ Hp)].
        destruct u0 as [[? ?] ?]. unfold near, near1. cbn. repeat split; lra. }
      revert X. generalize (vsum (map (fun x => unwrap3 (lift p0) (lift x)) (p0 :: L))). intros [[? ?] ?]. generalize (vsum (map (fun p => vadd (fst p) (qvec (snd p0))) (p0 :: L))). intros [[? ?] ?]. cbn. intros (E1 & E2 & E3). rewrite E1, E2, E3. repeat split; ring. }
    assert (NZ : ~ (inject_Z (Z.of_nat (length (p0 :: L))) == 0)%Q) by (intros F; apply (proj1 (inject_Z_injective _ 0)) in F; cbn [length] in F; lia).
    eapply veq_trans; [apply vmap_comp; [|exact S]; intros p q Epq; apply mod1_comp, round12_comp; now rewrite Epq|].
    unfold mean. rewrite map_length. revert NZ. generalize (p0 :: L). intros l' NZ.
    destruct p0 as [u0 [[a b] c]]. cbn [snd qvec].
    assert (AX : forall (p : vec -> Q) k, (mod1 (round12 (qsum (map (fun q => p (fst q) + inject_Z k)%Q l') / inject_Z (Z.of_nat (length l')))) == mod1 (round12 (qsum (map (fun q : vec * (Z * Z * Z) => p (fst q)) l') / inject_Z (Z.of_nat (length l')))))%Q).
    { intros p k. rewrite <- (mod1_shift (round12 (qsum (map (fun q => p (fst q)) l') / _)) k). apply mod1_comp. rewrite <- round12_shift. apply round12_comp. rewrite (qsum_shift (fun q => p (fst q))). field. exact NZ. }
    unfold vsum. rewrite !map_map. cbn [vmap veq].
    assert (C : forall (p : vec -> Q) (k : Z), (forall v, p (vadd v (inject_Z a, inject_Z b, inject_Z c)) = (p v + inject_Z k)%Q) ->
      (mod1 (round12 (qsum (map (fun x : vec * (Z * Z * Z) => p (vadd (fst x) (inject_Z a, inject_Z b, inject_Z c))) l') / inject_Z (Z.of_nat (length l')))) == mod1 (round12 (qsum (map (fun x => p (fst x)) l') / inject_Z (Z.of_nat (length l')))))%Q).
    { intros p k Hp. erewrite map_ext; [apply (AX p k)|]. intros q. apply Hp. }
    repeat split; [apply (C px a)|apply (C py b)|apply (C pz c)]; intros [[? ?] ?]; reflexivity.
Qed.

(** Mean values do not depend on the order. *)
Lemma vsum_perm l l' : Permutation l l' -> veq (vsum l) (vsum l').
Proof. intros P. unfold vsum. cbn. repeat split; apply qsum_perm, Permutation_map, P. Qed.
Lemma mean_perm l l' : Permutation l l' -> veq (mean l) (mean l').
Proof. intros P. unfold mean. rewrite (Permutation_length P). apply vmap_comp; [intros p q E; now rewrite E|now apply vsum_perm]. Qed.
Theorem merge_invariant l l' : l <> [] -> (forall p q, In p l -> In q l -> near (fst p) (fst q)) ->
  Permutation (map fst l) (map fst l') ->
  exists r r', merge_frac_coords (map lift l) = Some r /\ merge_frac_coords (map lift l') = Some r' /\ veq r r'.
Proof.
  intros NE H P.
  assert (H' : forall p q, In p l' -> In q l' -> near (fst p) (fst q)).
  { intros p q Hp Hq. assert (I : forall x, In x l' -> exists y, In y l /\ fst y = fst x).
    { intros x Hx. apply (in_map fst), (Permutation_in _ (Permutation_sym P)), in_map_iff in Hx as (y & E & Hy). eauto. }
    destruct (I p Hp) as (p' & Ip & <-), (I q Hq) as (q' & Iq & <-). auto. }
  destruct l as [|p0 l]; [contradiction|]. destruct l' as [|q0 l']; [apply Permutation_length in P; discriminate|].
  destruct (merge_spec p0 l) as (r & E & _ & V); [intros p Hp; apply H; cbn; auto|].
  destruct (merge_spec q0 l') as (r' & E' & _ & V'); [intros p Hp; apply H'; cbn; auto|].
  exists r, r'. split; [exact E|]. split; [exact E'|]. eapply veq_trans; [exact V|].
  assert (S : forall v w, veq v w -> veq w v) by (intros [[? ?] ?] [[? ?] ?]; cbn; intros (? & ? & ?); repeat split; now symmetry).
  apply S. eapply veq_trans; [exact V'|].
  pose proof (mean_perm _ _ P) as M. apply S in M.
  pose proof (Permutation_length P) as PL. rewrite !map_length in PL. cbn [length] in PL.
  destruct l as [|? l], l' as [|? l']; try discriminate.
  - eapply vmap_comp; [intros p q Epq; now apply mod1_comp|exact M].
  - eapply vmap_comp; [intros x y Epq; now apply mod1_comp, round12_comp|exact M].
Qed.

Lemma combine_map_l {A B C} (f : A -> B) (l : list A) (w : list C) : combine (map f l) w = map (fun p => (f (fst p), snd p)) (combine l w).
Proof. revert w. induction l as [|a l IH]; intros [|x w]; cbn; auto. now rewrite IH. Qed.
Lemma combine_map_r {A B C} (f : B -> C) (l : list A) (w : list B) : combine l (map f w) = map (fun p => (fst p, f (snd p))) (combine l w).
Proof. revert w. induction l as [|a l IH]; intros [|x w]; cbn; auto. now rewrite IH. Qed.
Lemma combine_snd {A B} (l : list A) (w : list B) : length l = length w -> map snd (combine l w) = w.
Proof. revert w. induction l as [|a l IH]; intros [|x w] E; cbn in *; try discriminate; auto. f_equal. apply IH. lia. Qed.
Theorem weighted_spec p0 l ws : length ws = length (p0 :: l) -> ~ (qsum ws == 0)%Q ->
  (forall p, In p l -> near (fst p) (fst p0)) ->
  let (r, ws') := merge_frac_coords_weighted (map lift (p0 :: l)) ws in
  in_cell r /\ veq r (vmap mod1 (weighted_mean (map fst (p0 :: l)) ws)) /\ (qsum ws' == 1)%Q.
Proof.
  intros LW NZ H. unfold merge_frac_coords_weighted.
  set (ws' := map (fun w => (w / qsum ws)%Q) ws).
  assert (S1 : (qsum ws' == 1)%Q). { unfold ws'. rewrite ChargeProofs.qsum_map_div. field. exact NZ. }
  split; [apply (in_cell_mod1 (fun t => t))|]. split; [|exact S1].
  assert (LW' : length (p0 :: l) = length ws') by (unfold ws'; now rewrite map_length).
  set (L := p0 :: l) in *. assert (RF : match combine (map lift L) ws' with [] => (0, 0, 0)%Q | (r, _) :: _ => r end = lift p0).
  { unfold L in *. destruct ws' as [|w ws'0]; [discriminate|]. reflexivity. }
  rewrite RF, combine_map_l.
  assert (F : veq (fold_left (fun t (cw : vec * Q) => vadd t (vmap (fun u => (u * snd cw)%Q) (unwrap3 (lift p0) (fst cw)))) (map (fun p => (lift (fst p), snd p)) (combine L ws')) (0, 0, 0)%Q)
    (vsum (map (fun pw : vec * (Z * Z * Z) * Q => vmap (fun u => (u * snd pw)%Q) (vadd (fst (fst pw)) (qvec (snd p0)))) (combine L ws')))).
  { eapply veq_trans; [apply (fold_vadd (fun cw : vec * Q => vmap (fun u => (u * snd cw)%Q) (unwrap3 (lift p0) (fst cw))))|]. rewrite map_map. cbn [fst snd].
    assert (X : veq (vsum (map (fun x : vec * (Z * Z * Z) * Q => vmap (fun u => (u * snd x)%Q) (unwrap3 (lift p0) (lift (fst x)))) (combine L ws')))
      (vsum (map (fun pw : vec * (Z * Z * Z) * Q => vmap (fun u => (u * snd pw)%Q) (vadd (fst (fst pw)) (qvec (snd p0)))) (combine L ws')))).
    { apply vsum_ext. intros [[u k] w] Hp. apply in_combine_l in Hp. cbn [fst snd]. apply vmap_comp; [intros p q E; now rewrite E|].
      destruct p0 as [u0 k0]. apply unwrap3_spec. destruct Hp as [[= <- <-]|Hp]; [|exact (H _ Hp)].
      destruct u0 as [[? ?] ?]. unfold near, near1. cbn. repeat split; lra. }
    revert X. generalize (vsum (map (fun x : vec * (Z * Z * Z) * Q => vmap (fun u => (u * snd x)%Q) (unwrap3 (lift p0) (lift (fst x)))) (combine L ws'))). intros [[? ?] ?].
    generalize (vsum (map (fun pw : vec * (Z * Z * Z) * Q => vmap (fun u => (u * snd pw)%Q) (vadd (fst (fst pw)) (qvec (snd p0)))) (combine L ws'))). intros [[? ?] ?]. cbn. intros (E1 & E2 & E3). rewrite E1, E2, E3. repeat split; ring. }
  eapply veq_trans; [apply vmap_comp; [intros p q; apply mod1_comp|exact F]|]. clear F RF.
  destruct p0 as [u0 [[a b] c]]. cbn [snd qvec]. unfold vsum, weighted_mean. rewrite !map_map. cbn [vmap veq].
  assert (C : forall (p : vec -> Q) (k : Z), (forall v w, p (vmap (fun u => (u * w)%Q) (vadd v (inject_Z a, inject_Z b, inject_Z c))) = ((p v + inject_Z k) * w)%Q) ->
    (mod1 (qsum (map (fun x : vec * (Z * Z * Z) * Q => p (vmap (fun u => (u * snd x)%Q) (vadd (fst (fst x)) (inject_Z a, inject_Z b, inject_Z c)))) (combine L ws'))) ==
     mod1 (qsum (map (fun uw : vec * Q => p (fst uw) * snd uw)%Q (combine (map fst L) ws)) / qsum ws))%Q).
  { intros p k Hp. rewrite (map_ext _ (fun x => (p (fst (fst x)) + inject_Z k) * snd x)%Q) by (intros x; apply Hp).
    rewrite <- (mod1_shift (_ / qsum ws) k). apply mod1_comp.
    rewrite (qsum_map_ext (fun x : vec * (Z * Z * Z) * Q => (p (fst (fst x)) + inject_Z k) * snd x)%Q (fun x => p (fst (fst x)) * snd x + inject_Z k * snd x)%Q) by (intros x _; ring).
    rewrite (qsum_map_plus (fun x : vec * (Z * Z * Z) * Q => p (fst (fst x)) * snd x)%Q (fun x => inject_Z k * snd x)%Q).
    apply Qplus_comp.
    - unfold ws'. rewrite combine_map_r, combine_map_l, !map_map. cbn [fst snd].
      rewrite <- ChargeProofs.qsum_map_div, map_map. apply qsum_map_ext. intros x _. field. exact NZ.
    - rewrite <- (map_map snd (fun w => inject_Z k * w)%Q), combine_snd by exact LW'. rewrite (qsum_map_scale (inject_Z k) (fun w : Q => w)), map_id, S1. ring. }
  repeat split; [apply (C px a)|apply (C py b)|apply (C pz c)]; intros [[? ?] ?] w; reflexivity.
Qed.

(** ** Offsets within a radius *)
Section Radius.
Variables nx ny nz : Z.
Variable lattice : mat.
Variable root : Q -> Q.
Variable argsort : list Q -> list nat.
Definition sorts (argsort : list Q -> list nat) : Prop := forall l, Permutation (argsort l) (seq 0 (length l)) /\
  StronglySorted Qle (map (fun t => nth t l 0%Q) (argsort l)).
Hypothesis SORT : sorts argsort.

Lemma nth_seq_id {A} (d : A) l : map (fun t => nth t l d) (seq 0 (length l)) = l.
Proof. induction l as [|a l IH]; [reflexivity|]. cbn [length seq map nth]. f_equal. rewrite <- seq_shift, map_map. exact IH. Qed.
Lemma candidates_spec r i j k : In (i, j, k) (candidates nx ny nz lattice root r) <->
  let '(a, b, c) := lattice in
  - nmax root a r nx <= i <= nmax root a r nx /\ - nmax root b r ny <= j <= nmax root b r ny /\ - nmax root c r nz <= k <= nmax root c r nz.
Proof.
  unfold candidates. destruct lattice as [[a b] c]. rewrite in_flat_map. split.
  - intros (x & Hx & H). apply in_flat_map in H as (y & Hy & H). apply in_map_iff in H as (z & [= -> -> ->] & Hz).
    unfold symmetric_range in *. apply in_arange in Hx, Hy, Hz. lia.
  - intros H. exists i. split; [apply in_arange; lia|]. apply in_flat_map. exists j. split; [apply in_arange; lia|].
    apply in_map_iff. exists k. split; [reflexivity|]. apply in_arange. lia.
Qed.
Lemma nodup_flat_map {A B C} (f : A -> list B) (key : B -> C) (g : A -> C) l : NoDup l -> (forall a b, g a = g b -> a = b) ->
  (forall a, NoDup (f a)) -> (forall a b, In b (f a) -> key b = g a) -> NoDup (flat_map f l).
Proof.
  intros N G F K. induction N as [|a l NI N IH]; cbn; [constructor|].
  apply NoDup_app_iff2; [apply F|exact IH|]. intros x Hx Hy.
  apply in_flat_map in Hy as (b & Hb & Hy). apply NI. rewrite (G a b); [exact Hb|]. now rewrite <- (K a x Hx), <- (K b x Hy).
Qed.
Lemma candidates_nodup r : NoDup (candidates nx ny nz lattice root r).
Proof.
  unfold candidates. destruct lattice as [[a b] c].
  apply (nodup_flat_map _ (fun o : Z * Z * Z => fst (fst o)) (fun i => i)); [apply arange_nodup|auto| |].
  - intros i. apply (nodup_flat_map _ (fun o : Z * Z * Z => snd (fst o)) (fun j => j)); [apply arange_nodup|auto| |].
    + intros j. apply FinFun.Injective_map_NoDup; [intros x y [= E]; exact E|apply arange_nodup].
    + intros j o H. apply in_map_iff in H as (z & <- & _). reflexivity.
  - intros i o H. apply in_flat_map in H as (y & _ & H). apply in_map_iff in H as (z & <- & _). reflexivity.
Qed.
Theorem radius_spec r : let (offs, ds) := get_transforms_in_radius nx ny nz lattice root argsort r in
  NoDup offs /\ ds = map (offset_dist nx ny nz lattice root) offs /\ StronglySorted Qle ds /\
  forall o, In o offs <-> In o (candidates nx ny nz lattice root r) /\ (offset_dist nx ny nz lattice root o <= r)%Q.
Proof.
  unfold get_transforms_in_radius. cbv zeta.
  set (offs := filter _ _). set (ds := map _ offs). destruct (SORT ds) as [P S].
  assert (LD : length ds = length offs) by (unfold ds; apply map_length).
  assert (PO : Permutation (map (fun t => nth t offs (0, 0, 0)) (argsort ds)) offs).
  { rewrite (Permutation_map _ P), LD. rewrite nth_seq_id. reflexivity. }
  split; [|split; [|split; [exact S|]]].
  - apply (Permutation_NoDup (Permutation_sym PO)). apply NoDup_filter, candidates_nodup.
  - rewrite map_map. apply map_ext_in. intros t Ht. apply (Permutation_in _ P), in_seq in Ht.
    unfold ds. rewrite (nth_indep _ 0%Q (offset_dist nx ny nz lattice root (0, 0, 0))) by (rewrite map_length; lia). apply map_nth.
  - intros o. split; intros H.
    + apply (Permutation_in _ PO), filter_In in H as [H1 H2]. apply Qle_bool_iff in H2. auto.
    + apply (Permutation_in _ (Permutation_sym PO)), filter_In. destruct H as [H1 H2]. apply Qle_bool_iff in H2. auto.
Qed.

(** Orthogonal cells. *)
Definition vdot (u v : vec) : Q := let '(x, y, z) := u in let '(x', y', z') := v in (x * x' + y * y' + z * z')%Q.
Definition orthogonal (m : mat) : Prop := let '(a, b, c) := m in (vdot a b == 0 /\ vdot a c == 0 /\ vdot b c == 0)%Q.
Lemma axis_bound (a : vec) r n i L : 0 < n -> (0 < root (norm2 a))%Q -> (root (norm2 a) * root (norm2 a) <= norm2 a)%Q -> (0 <= r)%Q ->
  ((inject_Z i / inject_Z n) * (inject_Z i / inject_Z n) * norm2 a <= L)%Q -> (L <= r * r)%Q -> - nmax root a r n <= i <= nmax root a r n.
Proof.
  intros Hn P R Hr B HL. set (s := root (norm2 a)) in *.
  assert (Pn : (0 < inject_Z n)%Q) by (rewrite <- (Zlt_Qlt 0); exact Hn).
  set (f := (inject_Z i / inject_Z n)%Q) in *.
  assert (F2 : (0 <= f * f)%Q) by nra.
  assert (K : (f * f * (s * s) <= r * r)%Q). { apply Qle_trans with (f * f * norm2 a)%Q; [|lra]. rewrite !(Qmult_comm (f * f)). apply Qmult_le_compat_r; assumption. }
  assert (K2 : (- r <= f * s <= r)%Q) by (split; nra).
  assert (E : (f * inject_Z n == inject_Z i)%Q) by (unfold f; field; lra).
  unfold nmax. fold s.
  assert (Q1 : (f <= r / s)%Q) by (apply Qle_shift_div_l; [exact P|lra]).
  assert (Q2 : (- f <= r / s)%Q) by (apply Qle_shift_div_l; [exact P|lra]).
  pose proof (Qle_ceiling (r / s * inject_Z n)) as C.
  assert (I1 : (inject_Z i <= inject_Z (Qceiling (r / s * inject_Z n)))%Q) by (rewrite <- E; nra).
  assert (I2 : (inject_Z (- i) <= inject_Z (Qceiling (r / s * inject_Z n)))%Q) by (rewrite inject_Z_opp, <- E; nra).
  rewrite <- Zle_Qle in I1, I2. lia.
Qed.
Theorem radius_complete r i j k : 0 < nx -> 0 < ny -> 0 < nz -> orthogonal lattice -> (0 <= r)%Q ->
  (let '(a, b, c) := lattice in forall v, In v [a; b; c] -> (0 < root (norm2 v))%Q /\ (root (norm2 v) * root (norm2 v) <= norm2 v)%Q) ->
  (norm2 (vmat (over_shape nx ny nz (qvec (i, j, k))) lattice) <= r * r)%Q -> In (i, j, k) (candidates nx ny nz lattice root r).
Proof.
  intros X Y Z' O R RT L. apply candidates_spec. destruct lattice as [[a b] c]. destruct O as (O1 & O2 & O3).
  destruct (RT a) as [A1 A2]; [cbn; auto|]. destruct (RT b) as [B1 B2]; [cbn; auto|]. destruct (RT c) as [C1 C2]; [cbn; auto|].
  set (f := (inject_Z i / inject_Z nx)%Q) in *. set (g := (inject_Z j / inject_Z ny)%Q) in *. set (h := (inject_Z k / inject_Z nz)%Q) in *.
  assert (N : (norm2 (vmat (over_shape nx ny nz (qvec (i, j, k))) (a, b, c)) == f * f * norm2 a + g * g * norm2 b + h * h * norm2 c)%Q).
  { cbn [qvec over_shape]. fold f g h. destruct a as [[a0 a1] a2], b as [[b0 b1] b2], c as [[c0 c1] c2]. cbn in *.
    transitivity (f * f * (a0 * a0 + a1 * a1 + a2 * a2) + g * g * (b0 * b0 + b1 * b1 + b2 * b2) + h * h * (c0 * c0 + c1 * c1 + c2 * c2)
      + 2 * f * g * (a0 * b0 + a1 * b1 + a2 * b2) + 2 * f * h * (a0 * c0 + a1 * c1 + a2 * c2) + 2 * g * h * (b0 * c0 + b1 * c1 + b2 * c2))%Q; [ring|].
    rewrite O1, O2, O3. ring. }
  rewrite N in L.
  assert (POS : forall (t : Q) v, (0 <= t * t * norm2 v)%Q). { intros t [[x y] z]. cbn. apply Qmult_le_0_compat; nra. }
  pose proof (POS f a). pose proof (POS g b). pose proof (POS h c).
  split; [|split]; eapply axis_bound; eauto; fold f g h; lra.
Qed.
End Radius.
