(** Properties of the search for the domains that surround an atom. *)
From Coq Require Import Permutation.
From Verif Require Import Base GridModel GridProofs NeighModel RootsModel UnionModel AroundModel.
Local Open Scope Z_scope.

(** ** Contacts *)
Definition moved (nx ny nz : Z) (p t : pos) : pos := let '(i, j, k) := p in let '(a, b, c) := t in ((i + a) mod nx, (j + b) mod ny, (k + c) mod nz).
(** The voxel [p] belongs to void [r], and its neighbour at offset [t] is outside the solid, in domain [d]. *)
Definition touches (nx ny nz : Z) (solid vac : arr3 bool) (domain : pos -> Z) (void : pos -> nat) (r : nat) (d : Z) (pt : pos * pos) : bool :=
  let '(p, t) := pt in let u := moved nx ny nz p t in
  at3 solid p && negb (at3 vac p) && negb (at3 solid u) && Nat.eqb (void p) r && (domain u =? d).
Definition tally (r : nat) (d : Z) (l : list (nat * Z)) : nat := length (filter (fun h => Nat.eqb (fst h) r && (snd h =? d)) l).

Lemma bump_spec nv nd counts h : length counts = nv -> Forall (fun r => length r = nd) counts -> (fst h < nv)%nat -> 0 <= snd h < Z.of_nat nd ->
  length (bump counts h) = nv /\ Forall (fun r => length r = nd) (bump counts h) /\
  forall r d, nth d (nth r (bump counts h) []) 0 = nth d (nth r counts []) 0 + (if Nat.eqb (fst h) r && Nat.eqb (Z.to_nat (snd h)) d then 1 else 0).
Proof.
  intros L F H1 H2. unfold bump. set (rw := nth (fst h) counts []). assert (LR : length rw = nd) by (rewrite Forall_forall in F; apply F, nth_In; lia).
  unfold np_get, np_set. rewrite np_idx_pos by lia. rewrite (nth_error_nth_lt _ _ 0) by lia. set (c := nth (Z.to_nat (snd h)) rw 0). split; [now rewrite upd_length|]. split.
  - apply Forall_forall. intros x X. apply In_nth_error in X as (i & X). rewrite nth_error_upd in X. destruct (_ && _); [injection X as <-; rewrite upd_length; exact LR|]. rewrite Forall_forall in F. apply F. now apply nth_error_In in X.
  - intros r d. destruct (Nat.eqb_spec (fst h) r) as [<-|N].
    + rewrite nth_upd_same by lia. rewrite nth_upd. cbn [andb]. rewrite LR. assert (LT : Nat.ltb (Z.to_nat (snd h)) nd = true) by (apply Nat.ltb_lt; lia). rewrite LT, andb_true_r. destruct (Nat.eqb_spec (Z.to_nat (snd h)) d) as [<-|N]; [reflexivity|]. fold rw. lia.
    + rewrite nth_upd_other by exact N. cbn [andb]. lia.
Qed.
Lemma bumps_spec nv nd l : forall counts, length counts = nv -> Forall (fun r => length r = nd) counts -> Forall (fun h => (fst h < nv)%nat /\ 0 <= snd h < Z.of_nat nd) l ->
  forall r d, (d < nd)%nat -> nth d (nth r (fold_left bump l counts) []) 0 = nth d (nth r counts []) 0 + Z.of_nat (tally r (Z.of_nat d) l).
Proof.
  induction l as [|h l IH]; intros counts L F H r d D; [cbn; lia|]. apply Forall_cons_iff in H as [[H1 H2] H]. destruct (bump_spec nv nd counts h L F H1 H2) as (L' & F' & E). cbn [fold_left]. rewrite (IH _ L' F' H r d D), E. unfold tally. cbn [filter].
  assert (EQ : Nat.eqb (Z.to_nat (snd h)) d = (snd h =? Z.of_nat d)) by (destruct (Nat.eqb_spec (Z.to_nat (snd h)) d), (Z.eqb_spec (snd h) (Z.of_nat d)); auto; lia). rewrite EQ. destruct (_ && _); cbn [length]; lia.
Qed.
Lemma tally_app r d a b : tally r d (a ++ b) = (tally r d a + tally r d b)%nat.
Proof. unfold tally. now rewrite filter_app, app_length. Qed.
Lemma tally_perm r d a b : Permutation a b -> tally r d a = tally r d b.
Proof. unfold tally. induction 1 as [|x a b P IH|x y a|a b c P1 IH1 P2 IH2]; cbn [filter]; [reflexivity|destruct (_ && _); cbn [length]; lia|destruct (_ && _), (_ && _); reflexivity|congruence]. Qed.

(** C165: the entry of the matrix for a void and a domain is the number of pairs of a voxel of the void and a neighbour of it
    in the domain, in any order of the voxels. *)
Theorem C165_counts nx ny nz solid vac labels bdm void neighbors nv nd order domain : 1 <= nx -> 1 <= ny -> 1 <= nz -> Permutation order (voxels nx ny nz) ->
  (forall a b c, In (a, b, c) neighbors -> Z.abs a <= 1 /\ Z.abs b <= 1 /\ Z.abs c <= 1) ->
  (forall p, in_grid nx ny nz p -> at3 solid p = true -> at3 vac p = false -> (void p < nv)%nat) ->
  (forall u, in_grid nx ny nz u -> at3 solid u = false -> np_get bdm (at3 labels u) = Some (domain u) /\ 0 <= domain u < Z.of_nat nd) ->
  forall r d, (d < nd)%nat -> nth d (nth r (connection_counts nx ny nz solid vac labels bdm void neighbors nv nd order) []) 0 =
    Z.of_nat (length (filter (touches nx ny nz solid vac domain void r (Z.of_nat d)) (list_prod (voxels nx ny nz) neighbors))).
Proof.
  intros X Y Z0 PO NB VO DO r d D. unfold connection_counts. set (hs := hits nx ny nz solid vac labels bdm void neighbors).
  assert (IV : forall p, In p (voxels nx ny nz) -> in_grid nx ny nz p) by (intros p; apply in_voxels).
  assert (W : forall i j k a b c, in_grid nx ny nz (i, j, k) -> In (a, b, c) neighbors -> wrap_point (i + a) (j + b) (k + c) nx ny nz = moved nx ny nz (i, j, k) (a, b, c) /\ in_grid nx ny nz (moved nx ny nz (i, j, k) (a, b, c))).
  { intros i j k a b c G IN. destruct (NB a b c IN) as (A & B & C). unfold in_grid in G. unfold wrap_point, moved. rewrite !wrap1_mod by lia. split; [reflexivity|]. unfold in_grid. split; [|split]; apply Z.mod_pos_bound; lia. }
  assert (HT : forall p, in_grid nx ny nz p -> hs p = if negb (at3 solid p) || at3 vac p then [] else flat_map (fun t => let u := moved nx ny nz p t in if at3 solid u then [] else [(void p, domain u)]) neighbors).
  { intros [[i j] k] G. unfold hs, hits. destruct (negb _ || _); [reflexivity|]. assert (NB' : forall t, In t neighbors -> In t neighbors) by auto. revert NB'. generalize neighbors at 1 3 4. intros l. induction l as [|[[a b] c] l IH]; intros SUB; [reflexivity|]. cbn [flat_map]. rewrite IH by (intros t T; apply SUB; now right). destruct (W i j k a b c G (SUB _ (or_introl eq_refl))) as [-> GU]. cbv zeta. f_equal. destruct (at3 solid (moved nx ny nz (i, j, k) (a, b, c))) eqn:S; [reflexivity|]. destruct (DO _ GU S) as [-> _]. reflexivity. }
  rewrite (bumps_spec nv nd); [| apply repeat_length| apply Forall_forall; intros x IX; apply repeat_spec in IX as ->; apply repeat_length| |exact D].
  2:{ apply Forall_forall. intros h IH. apply in_flat_map in IH as (p & IP & IH). apply (Permutation_in p PO) in IP. specialize (IV p IP). fold hs in IH. rewrite (HT p IV) in IH. destruct (at3 solid p) eqn:S; [|destruct IH]. destruct (at3 vac p) eqn:V; [destruct IH|]. cbn [negb orb] in IH. apply in_flat_map in IH as ([[a b] c] & IT & IH). cbv zeta in IH. destruct p as [[i j] k]. destruct (W i j k a b c IV IT) as [_ GU]. destruct (at3 solid (moved nx ny nz (i, j, k) (a, b, c))) eqn:SU; [destruct IH|]. destruct IH as [<-|[]]. cbn [fst snd]. split; [now apply VO|now apply DO]. }
  assert (ZE : nth d (nth r (repeat (repeat 0 nd) nv) []) 0 = 0). { destruct (nth_in_or_default r (repeat (repeat 0 nd) nv) []) as [H|H]; [apply repeat_spec in H; rewrite H|rewrite H; now destruct d]. destruct (nth_in_or_default d (repeat 0 nd) 0) as [K|K]; [now apply repeat_spec in K|exact K]. }
  rewrite ZE, Z.add_0_l. f_equal. rewrite (tally_perm r (Z.of_nat d) _ _ (Permutation_flat_map hs PO)). clear PO. revert IV. induction (voxels nx ny nz) as [|p l IH]; intros IV; [reflexivity|]. cbn [flat_map list_prod]. rewrite tally_app, filter_app, app_length, <- IH by (intros q Q0; apply IV; now right). f_equal. rewrite (HT p) by (apply IV; now left). clear.
  destruct (at3 solid p) eqn:S, (at3 vac p) eqn:V; cbn [negb orb]; try (unfold tally; cbn [filter length]; induction neighbors as [|t ts IH]; [reflexivity|]; cbn [map filter]; unfold touches at 1; rewrite S, V; cbn [negb andb]; exact IH).
  induction neighbors as [|t ts IH]; [reflexivity|]. cbn [flat_map map filter]. rewrite tally_app, IH. unfold touches at 2. rewrite S, V. cbn [negb andb]. cbv zeta. destruct (at3 solid (moved nx ny nz p t)); cbn [negb andb]; [reflexivity|]. unfold tally. cbn [filter fst snd length]. destruct (Nat.eqb (void p) r && (domain (moved nx ny nz p t) =? Z.of_nat d)); reflexivity.
Qed.

(** ** The walk *)
Lemma argmax_from_spec l : forall i best m, (best < i)%nat -> let b := argmax_from l i best m in
  (b = best /\ Forall (fun x => x <= m) l) \/ ((i <= b < i + length l)%nat /\ m < nth (b - i) l 0 /\ Forall (fun x => x <= nth (b - i) l 0) l /\ forall j, (j < b - i)%nat -> nth j l 0 < nth (b - i) l 0).
Proof.
  induction l as [|x l IH]; intros i best m H; cbn [argmax_from]; [left; auto|]. cbv zeta. destruct (Z.ltb_spec m x) as [L|L].
  - destruct (IH (S i) i x ltac:(lia)) as [[-> F]|(B & M & F & J)].
    + right. rewrite Nat.sub_diag. cbn [nth length]. split; [lia|]. split; [exact L|]. split; [constructor; [lia|exact F]|lia].
    + right. set (b := argmax_from l (S i) i x) in *. replace (b - i)%nat with (S (b - S i)) by lia. cbn [nth length]. split; [lia|]. split; [lia|]. split; [constructor; [lia|exact F]|]. intros [|j] JL; cbn [nth]; [exact M|apply J; lia].
  - destruct (IH (S i) best m ltac:(lia)) as [[-> F]|(B & M & F & J)]; [left; split; [reflexivity|constructor; [lia|exact F]]|]. right. set (b := argmax_from l (S i) best m) in *. replace (b - i)%nat with (S (b - S i)) by lia. cbn [nth length]. split; [lia|]. split; [exact M|]. split; [constructor; [lia|exact F]|]. intros [|j] JL; cbn [nth]; [lia|apply J; lia].
Qed.
(** [b] is the first position of the largest entry. *)
Definition most (l : list Z) (b : nat) : Prop := (b < length l)%nat /\ (forall j, (j < length l)%nat -> nth j l 0 <= nth b l 0) /\ forall j, (j < b)%nat -> nth j l 0 < nth b l 0.
Lemma argmax_spec l b : np_argmax l = Some b <-> most l b.
Proof.
  assert (U : forall b b', most l b -> most l b' -> b = b'). { intros b0 b' (B1 & B2 & B3) (C1 & C2 & C3). destruct (lt_eq_lt_dec b0 b') as [[L|L]|L]; [|exact L|]; [specialize (C3 _ L); specialize (B2 _ C1); lia|specialize (B3 _ L); specialize (C2 _ B1); lia]. }
  assert (K : l <> [] -> exists b, np_argmax l = Some b /\ most l b).
  { destruct l as [|x l']; [congruence|]. intros _. cbn [np_argmax]. eexists. split; [reflexivity|]. destruct (argmax_from_spec l' 1 0 x ltac:(lia)) as [[-> F]|(B & M & F & J)]; rewrite Forall_forall in F.
    - split; [cbn; lia|]. split; [|lia]. intros [|j] L; cbn [nth]; [lia|]. apply F, nth_In. cbn in L. lia.
    - set (b0 := argmax_from l' 1 0 x) in *. destruct b0 as [|b0]; [lia|]. rewrite Nat.sub_succ, Nat.sub_0_r in M, F, J. split; [cbn; lia|]. cbn [nth]. split; [intros [|j] L; cbn [nth]; [lia|apply F, nth_In; cbn in L; lia]|]. intros [|j] L; cbn [nth]; [exact M|apply J; lia]. }
  destruct l as [|x l']; [split; [discriminate|intros (B & _); cbn in B; lia]|]. destruct (K ltac:(discriminate)) as (b0 & E & M). rewrite E. split; [intros H; injection H as <-; exact M|intros H; f_equal; now apply U].
Qed.

(** The way from a void or domain outwards: from a finite void to the domain it touches most, from a finite domain to the
    void it touches most, up to something infinite; the domains met on the way, in at most [n] steps. *)
Inductive outward (counts : list (list Z)) (all_domains : list nat) (domain_dims void_dims : list Z) : bool -> nat -> list nat -> nat -> Prop :=
| out_void w : 0 < nth w void_dims 0 -> outward counts all_domains domain_dims void_dims true w [] 1
| in_void w g l n : nth w void_dims 0 <= 0 -> most (row counts w) g -> outward counts all_domains domain_dims void_dims false g l n ->
    outward counts all_domains domain_dims void_dims true w l (S n)
| out_domain g d : nth_error all_domains g = Some d -> 0 < nth d domain_dims 0 -> outward counts all_domains domain_dims void_dims false g [d] 1
| in_domain g d w l n : nth_error all_domains g = Some d -> nth d domain_dims 0 <= 0 -> most (column counts g) w -> outward counts all_domains domain_dims void_dims true w l n ->
    outward counts all_domains domain_dims void_dims false g (d :: l) (S n).

Lemma walk_spec counts doms ddims vdims c : forall b g found r, walk counts doms ddims vdims c b g found = Done r <->
  exists l n, (n <= c)%nat /\ outward counts doms ddims vdims b g l n /\ r = found ++ l.
Proof.
  induction c as [|c IH]; intros b g found r; cbn [walk]; [split; [discriminate|intros (l & n & N & O & _); inversion O; lia]|]. destruct b.
  - destruct (Z.ltb_spec 0 (nth g vdims 0)) as [L|L].
    + split; [intros H; injection H as <-; exists [], 1%nat; split; [lia|]; split; [now constructor|now rewrite app_nil_r]|]. intros (l & n & _ & O & ->). inversion O; subst; [now rewrite app_nil_r|lia].
    + destruct (np_argmax (row counts g)) as [w|] eqn:A; cbn [oget obind].
      * rewrite IH. split.
        -- intros (l & n & N & O & ->). exists l, (S n). split; [lia|]. split; [|reflexivity]. apply in_void with w; [lia|now apply argmax_spec|exact O].
        -- intros (l & n & N & O & ->). inversion O as [? H|? g' ? n' H M O'| |]; subst; [lia|]. apply argmax_spec in M. rewrite A in M. injection M as <-. exists l, n'. split; [lia|]. split; [exact O'|reflexivity].
      * split; [discriminate|]. intros (l & n & N & O & ->). inversion O as [? H|? g' ? n' H M O'| |]; subst; [lia|]. apply argmax_spec in M. congruence.
  - destruct (nth_error doms g) as [d|] eqn:E; cbn [oget obind].
    2:{ split; [discriminate|]. intros (l & n & N & O & ->). inversion O; subst; congruence. }
    destruct (Z.ltb_spec 0 (nth d ddims 0)) as [L|L].
    + split; [intros H; injection H as <-; exists [d], 1%nat; split; [lia|]; split; [now constructor|reflexivity]|]. intros (l & n & _ & O & ->). inversion O as [| |? d' H1 H2|? d' w' l' n' H1 H2 H3 H4]; subst; rewrite E in H1; injection H1 as <-; [reflexivity|lia].
    + destruct (np_argmax (column counts g)) as [w|] eqn:A; cbn [oget obind].
      * rewrite IH. split.
        -- intros (l & n & N & O & ->). exists (d :: l), (S n). split; [lia|]. split; [|now rewrite <- app_assoc]. apply in_domain with w; [exact E|lia|now apply argmax_spec|exact O].
        -- intros (l & n & N & O & ->). inversion O as [| |? d' H1 H2|? d' w' l' n' H1 H2 H3 H4]; subst; rewrite E in H1; injection H1 as <-; [lia|]. apply argmax_spec in H3. rewrite A in H3. injection H3 as <-. exists l', n'. split; [lia|]. split; [exact H4|now rewrite <- app_assoc].
      * split; [discriminate|]. intros (l & n & N & O & ->). inversion O as [| |? d' H1 H2|? d' w' l' n' H1 H2 H3 H4]; subst; rewrite E in H1; injection H1 as <-; [lia|]. apply argmax_spec in H3. congruence.
Qed.
Lemma walk_ends counts doms ddims vdims c : forall b g found, walk counts doms ddims vdims c b g found <> Running.
Proof.
  induction c as [|c IH]; intros b g found; cbn [walk]; [discriminate|]. destruct b.
  - destruct (0 <? nth g vdims 0); [discriminate|]. destruct (np_argmax (row counts g)); cbn [oget obind]; [apply IH|discriminate].
  - destruct (nth_error doms g); cbn [oget obind]; [|discriminate]. destruct (0 <? nth _ ddims 0); [discriminate|]. destruct (np_argmax (column counts g)); cbn [oget obind]; [apply IH|discriminate].
Qed.

(** C166: the domains found are those on the way outwards; without a way of at most 101 steps the search raises. *)
Theorem C166_found counts doms ddims vdims b g : 
  (forall l, find_atom_domains counts doms ddims vdims b g = Done l <-> exists n, (n <= 101)%nat /\ outward counts doms ddims vdims b g l n) /\
  (find_atom_domains counts doms ddims vdims b g = Raised <-> forall l n, outward counts doms ddims vdims b g l n -> (101 < n)%nat).
Proof.
  assert (K : forall l, find_atom_domains counts doms ddims vdims b g = Done l <-> exists n, (n <= 101)%nat /\ outward counts doms ddims vdims b g l n).
  { intros l. unfold find_atom_domains. rewrite walk_spec. cbn [app]. split; [intros (l' & n & N & O & ->); eauto|intros (n & N & O); eauto]. }
  split; [exact K|]. destruct (find_atom_domains counts doms ddims vdims b g) as [l| |] eqn:E.
  - split; [discriminate|]. intros H. apply K in eq_refl as (n & N & O) || (destruct (proj1 (K l) eq_refl) as (n & N & O)). specialize (H l n O). lia.
  - split; [|reflexivity]. intros _ l n O. destruct (le_lt_dec n 101) as [L|L]; [|exact L]. assert (H : Raised = Done l) by (apply K; eauto). discriminate.
  - now apply walk_ends in E.
Qed.
(** Every domain found but the last is finite. *)
Theorem C166_finite counts doms ddims vdims b g l n : outward counts doms ddims vdims b g l n -> forall l' d e, l = l' ++ [d; e] -> nth d ddims 0 <= 0.
Proof.
  induction 1 as [w H|w g l n H M O IH|g d H1 H2|g d w l n H1 H2 M O IH]; intros l' x y E.
  - destruct l'; discriminate.
  - eauto.
  - destruct l' as [|? [|? ?]]; discriminate.
  - destruct l' as [|z l']; [cbn in E; injection E as -> ->; exact H2|]. cbn in E. injection E as <- E. eauto.
Qed.
(** Each atom gets the domains on the way from where it sits. *)
Theorem C166_all counts doms ddims vdims solid labels bdm void atoms ls :
  find_all_atom_domains counts doms ddims vdims solid labels bdm void atoms = Done ls <->
  Forall2 (fun p l => exists n, (n <= 101)%nat /\ (at3 solid p = true -> outward counts doms ddims vdims true (void p) l n) /\
    (at3 solid p = false -> exists d, np_get bdm (at3 labels p) = Some d /\ outward counts doms ddims vdims false (Z.to_nat d) l n)) atoms ls.
Proof.
  revert ls. induction atoms as [|p t IH]; intros ls; cbn [find_all_atom_domains]; [split; [intros H; injection H as <-; constructor|intros H; now inversion H]|].
  assert (E : forall l, obind (atom_start solid labels bdm void p) (fun '(b, g) => find_atom_domains counts doms ddims vdims b g) = Done l <-> exists n, (n <= 101)%nat /\ (at3 solid p = true -> outward counts doms ddims vdims true (void p) l n) /\
    (at3 solid p = false -> exists d, np_get bdm (at3 labels p) = Some d /\ outward counts doms ddims vdims false (Z.to_nat d) l n)).
  { intros l. unfold atom_start. destruct (at3 solid p); cbn [obind].
    - rewrite (proj1 (C166_found counts doms ddims vdims true (void p))). split; intros (n & N & H); exists n; [split; [exact N|split; [auto|discriminate]]|split; [exact N|now apply H]].
    - destruct (np_get bdm (at3 labels p)) as [d|]; cbn [oget obind].
      + rewrite (proj1 (C166_found counts doms ddims vdims false (Z.to_nat d))). split; intros (n & N & H); exists n; [split; [exact N|split; [discriminate|eauto]]|]. destruct H as [_ H]. destruct (H eq_refl) as (d' & D & O). injection D as <-. auto.
      + split; [discriminate|]. intros (n & _ & _ & H). destruct (H eq_refl) as (d & D & _). discriminate. }
  destruct (atom_start solid labels bdm void p) as [[b g]| |] eqn:A; cbn [obind] in E |- *.
  - destruct (find_atom_domains counts doms ddims vdims b g) as [l| |] eqn:F; cbn [obind].
    + destruct (find_all_atom_domains counts doms ddims vdims solid labels bdm void t) as [r| |] eqn:R; cbn [obind].
      * split; [intros H; injection H as <-; constructor; [now apply E|now apply IH]|]. intros H. inversion H as [|? l' ? r' H1 H2]; subst. apply E in H1. injection H1 as <-. apply IH in H2. now injection H2 as <-.
      * split; [discriminate|]. intros H. inversion H as [|? l' ? r' H1 H2]; subst. apply IH in H2. discriminate.
      * split; [discriminate|]. intros H. inversion H as [|? l' ? r' H1 H2]; subst. apply IH in H2. discriminate.
    + split; [discriminate|]. intros H. inversion H as [|? l' ? r' H1 H2]; subst. apply E in H1. discriminate.
    + split; [discriminate|]. intros H. inversion H as [|? l' ? r' H1 H2]; subst. apply E in H1. discriminate.
  - split; [discriminate|]. intros H. inversion H as [|? l' ? r' H1 H2]; subst. apply E in H1. discriminate.
  - split; [discriminate|]. intros H. inversion H as [|? l' ? r' H1 H2]; subst. apply E in H1. discriminate.
Qed.
(** C167: a finite domain and a finite void that touch each other most have no way outwards: the search from either
    raises. *)
Theorem C167_bounce counts doms ddims vdims g d w : nth_error doms g = Some d -> nth d ddims 0 <= 0 -> nth w vdims 0 <= 0 -> most (row counts w) g -> most (column counts g) w ->
  find_atom_domains counts doms ddims vdims true w = Raised /\ find_atom_domains counts doms ddims vdims false g = Raised.
Proof.
  intros E D V R C. assert (K : forall n b x l, outward counts doms ddims vdims b x l n -> (b = true -> x = w) -> (b = false -> x = g) -> False).
  { induction n as [n IH] using lt_wf_ind. intros b x l O BT BF. destruct O as [w' H|w' g' l n H M O|g' d' H1 H2|g' d' w' l n H1 H2 M O].
    - rewrite (BT eq_refl) in H. lia.
    - rewrite (BT eq_refl) in M. apply argmax_spec in M, R. rewrite R in M. injection M as <-. apply (IH n ltac:(lia) false g l O); [discriminate|auto].
    - rewrite (BF eq_refl), E in H1. injection H1 as <-. lia.
    - rewrite (BF eq_refl) in M. apply argmax_spec in M, C. rewrite C in M. injection M as <-. apply (IH n ltac:(lia) true w l O); [auto|discriminate]. }
  split; apply C166_found; intros l n O; exfalso; eapply K; eauto; discriminate.
Qed.
Print Assumptions C165_counts.
Print Assumptions C166_found.
Print Assumptions C166_finite.
Print Assumptions C166_all.
Print Assumptions C167_bounce.

(** ** Examples *)
(** A line of eight voxels across a channel: void 0 outside (voxels 0, 7), a shell of domain 0 (voxels 1, 2, 5, 6), and an
    inner void 1 (voxel 3) beside the domain 1 (voxel 4), whose basin is number 2. *)
Definition ex_solid : arr3 bool := fun i _ _ => (i =? 0) || (i =? 7) || (i =? 3).
Definition ex_labels : arr3 Z := fun i _ _ => if i =? 4 then 2 else if i <? 4 then 0 else 1.
Definition ex_void (p : pos) : nat := let '(i, _, _) := p in if i =? 3 then 1%nat else 0%nat.
Definition ex_faces : list pos := [(1, 0, 0); (-1, 0, 0)].
Definition ex_counts := connection_counts 8 1 1 ex_solid (fun _ _ _ => false) ex_labels [0; 0; 1] ex_void ex_faces 2 2 (voxels 8 1 1).
Example ex_counts_value : ex_counts = [[2; 0]; [1; 1]].
Proof. reflexivity. Qed.
(** Domains 0 and 1 are numbers 5 and 7 of all domains; void 1 and domain 7 are finite. *)
Definition ex_dims : list Z := [0; 0; 0; 0; 0; 2; 0; 0].
Example ex_found : find_all_atom_domains ex_counts [5; 7]%nat ex_dims [2; 0] ex_solid ex_labels [0; 0; 1] ex_void [(3, 0, 0); (4, 0, 0); (0, 0, 0)] = Done [[5]; [7; 5]; []]%nat.
Proof. reflexivity. Qed.
Example ex_way : outward ex_counts [5; 7]%nat ex_dims [2; 0] false 1 [7; 5]%nat 3.
Proof.
  apply in_domain with 1%nat; [reflexivity|cbn; lia|apply argmax_spec; reflexivity|]. apply in_void with 0%nat; [cbn; lia|apply argmax_spec; reflexivity|].
  apply out_domain; [reflexivity|cbn; lia].
Qed.
(** With more contacts between the inner void and the inner domain than with the shell, neither is left. *)
Example ex_bounce : find_atom_domains [[9; 0]; [3; 4]] [5; 7]%nat ex_dims [2; 0] true 1 = Raised /\ most [3; 4] 1 /\ most [0; 4] 1.
Proof. split; [reflexivity|]. split; apply argmax_spec; reflexivity. Qed.
