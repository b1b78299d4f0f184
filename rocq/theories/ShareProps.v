(** C46, C64, C65: sharing feature charges between atoms. *)
From Coq Require Import QArith Lqa.
From Verif Require Import Base RootsModel UnionModel ChargeModel ChargeProofs ShareModel ShareSpec ShareProofs.
Local Open Scope nat_scope.

Lemma get_ok sys use_e m : sharable sys use_e m ->
  exists c v, get_charges_and_volumes sys use_e m = Done (c, v) /\
    length c = n_sites sys use_e /\ length v = n_sites sys use_e /\
    forall a, (nth a c 0 == got sys use_e m ft_charge 0 (s_features sys) a)%Q /\
              (nth a v 0 == got sys use_e m ft_volume 0 (s_features sys) a)%Q.
Proof.
  intro H. set (n := n_sites sys use_e).
  destruct (feature_loop_ok sys use_e m H (s_features sys) [] (repeat 0%Q n, repeat 0%Q n) eq_refl) as ((c & v) & E & L1 & L2 & N);
    [apply repeat_length..|].
  exists c, v. unfold get_charges_and_volumes. split; [|split; [exact L1|split; [exact L2|]]].
  - fold n. rewrite <- E. now destruct use_e.
  - intro a. destruct (N a) as (N1 & N2). cbn [fst snd length] in *. rewrite N1, N2, !nth_repeat0. split; ring.
Qed.

(** C46: every site gets its fraction of every feature. *)
Theorem C46_shares sys use_e m : sharable sys use_e m ->
  exists c v, get_charges_and_volumes sys use_e m = Done (c, v) /\
    length c = n_sites sys use_e /\ length v = n_sites sys use_e /\
    forall a,
      (nth a c 0 == qsum (map (fun '(i, f) => ft_charge f * owned sys use_e m i f a)
                         (combine (seq 0 (length (s_features sys))) (s_features sys))))%Q /\
      (nth a v 0 == qsum (map (fun '(i, f) => ft_volume f * owned sys use_e m i f a)
                         (combine (seq 0 (length (s_features sys))) (s_features sys))))%Q.
Proof. intro H. exact (get_ok sys use_e m H). Qed.
Print Assumptions C46_shares.

Lemma got_total sys use_e m (w : feature -> Q) : sharable sys use_e m ->
  (qsum (map (got sys use_e m w 0 (s_features sys)) (seq 0 (n_sites sys use_e))) == qsum (map w (s_features sys)))%Q.
Proof.
  intro H. unfold got. rewrite qsum_swap.
  assert (G : forall l pre, s_features sys = pre ++ l ->
    (qsum (map (fun b => qsum (map (fun a => let '(j, f) := b in w f * owned sys use_e m j f a) (seq 0 (n_sites sys use_e))))
       (combine (seq (length pre) (length l)) l)) == qsum (map w l))%Q).
  { induction l as [|f t IH]; intros pre E; [reflexivity|]. cbn [length seq combine map]. rewrite !qsum_cons.
    specialize (IH (pre ++ [f])). rewrite app_length in IH. cbn [length] in IH. rewrite Nat.add_1_r in IH.
    rewrite IH by (rewrite <- app_assoc; exact E). rewrite qsum_map_scale, (owned_sum sys use_e m _ _ H); [ring|].
    rewrite E, nth_error_app2, Nat.sub_diag by lia. reflexivity. }
  exact (G (s_features sys) [] eq_refl).
Qed.

(** C46: nothing is lost and nothing is created. *)
Theorem C46_conserved sys use_e m c v : sharable sys use_e m ->
  get_charges_and_volumes sys use_e m = Done (c, v) ->
  (qsum c == qsum (map ft_charge (s_features sys)))%Q /\ (qsum v == qsum (map ft_volume (s_features sys)))%Q.
Proof.
  intros H E. destruct (get_ok sys use_e m H) as (c' & v' & E' & L1 & L2 & N). rewrite E in E'. injection E' as -> ->.
  split; (etransitivity; [apply qsum_nth_seq|]); rewrite ?L1, ?L2;
    (etransitivity; [|apply (got_total sys use_e m _ H)]); apply qsum_map_ext; intros a _; apply N.
Qed.
Print Assumptions C46_conserved.

(** Three atoms, a core of atom 0, a bond between atoms 0, 1 and an image of 1, and a bare electron
    near atom 2. *)
Definition ex_sys : system := System 3%nat
  [ Feature false 2 10 [0]%nat [0]%nat [1#10; 5; 5] [1#10; 5; 5; 4];
    Feature true 1 6 [2; 2]%nat [2; 2]%nat [4; 4; 2] [4; 4; 2; 0];
    Feature false 6 12 [0; 1; 1]%nat [0; 1; 1; 3]%nat [1; 2; 4] [1; 2; 4; 4] ]%Q
  [1; 2; 3; 4]%Q [1; 3; 1]%Q [1; 3; 1; 2]%Q.

Definition shown (o : outcome (list Q * list Q)) : option (list Q * list Q) :=
  match o with Done (c, v) => Some (map Qred c, map Qred v) | _ => None end.

Example C46_ex :
  shown (get_charges_and_volumes ex_sys false Equal) = Some ([4; 4; 1], [14; 8; 6])%Q /\
  shown (get_charges_and_volumes ex_sys false Dist) = Some ([5; 3; 1], [16; 6; 6])%Q /\
  shown (get_charges_and_volumes ex_sys true Weighted) = Some ([10#3; 4; 0; 5#3], [38#3; 8; 0; 22#3])%Q.
Proof. repeat split; vm_compute; reflexivity. Qed.

Example C46_ex_sharable : forall m, m <> Nearest -> sharable ex_sys false m.
Proof.
  intros m N. split; [exact N|]. intros f Hf _. destruct m; [| | | |congruence];
    repeat destruct Hf as [<-|Hf]; try contradiction; (split; [discriminate|]);
    (split; [intros b Hb; cbn in Hb |- *; lia|]); intros Hl; cbn in Hl; try lia;
    (split; [discriminate|]); intros HM b Hb; cbn in Hb; repeat destruct Hb as [<-|Hb]; try contradiction; discriminate.
Qed.

(** C64: with 'nearest' the whole feature goes to its nearest coordinated atom.  The position of the
    smallest distance in the list of coordinated atoms is used as if it were an atom index. *)
Definition nearest_sys : system := System 6
  [ Feature false 2 10 [3; 5]%nat [3; 5]%nat [9; 9; 9; 2; 9; 1] [9; 9; 9; 2; 9; 1] ]%Q [] [] [].

Theorem C64_nearest_refuted : exists sys f a c v,
  s_features sys = [f] /\ In a (ft_coord f) /\
  (forall b, b < s_atoms sys -> b <> a -> (nth a (ft_dists f) 0 < nth b (ft_dists f) 0)%Q) /\
  get_charges_and_volumes sys false Nearest = Done (c, v) /\
  (0 < ft_charge f)%Q /\ (nth a c 0 == 0)%Q /\ (nth a v 0 == 0)%Q /\
  exists b, ~ In b (ft_coord f) /\ (nth b c 0 == ft_charge f)%Q.
Proof.
  exists nearest_sys, (Feature false 2 10 [3; 5]%nat [3; 5]%nat [9; 9; 9; 2; 9; 1] [9; 9; 9; 2; 9; 1])%Q, 5,
    [0; 2; 0; 0; 0; 0]%Q, [0; 10; 0; 0; 0; 0]%Q.
  split; [reflexivity|]. split; [cbn; tauto|]. split.
  { intros b Hb Nb. cbn in Hb. do 6 (destruct b as [|b]; [cbn; try lia; lra|]). lia. }
  split; [reflexivity|]. split; [reflexivity|]. split; [reflexivity|]. split; [reflexivity|].
  exists 1. split; [cbn; lia|reflexivity].
Qed.
Print Assumptions C64_nearest_refuted.

(** ... and a feature without coordinated atoms, announced as assigned to its nearest atom, makes the
    whole call fail. *)
Theorem C64_alone_refuted : exists sys f, s_features sys = [f] /\ ft_coord f = [] /\ 0 < s_atoms sys /\
  length (ft_dists f) = s_atoms sys /\ forall m, get_charges_and_volumes sys false m = Raised.
Proof.
  exists (System 1 [Feature false 2 10 []%nat []%nat [1] [1]]%Q [] [] []), (Feature false 2 10 []%nat []%nat [1] [1])%Q.
  repeat (split; [cbn; auto|]). intro m. reflexivity.
Qed.
Print Assumptions C64_alone_refuted.

(** C65: with 'pauling' the documented rule gives the less electronegative of two atoms at least as
    much as the other. *)
Theorem C65_pauling_refuted : exists sys f a b c v,
  s_features sys = [f] /\ ft_coord f = [a; b] /\ sharable sys false Pauling /\
  (nth a (s_en sys) 0 < nth b (s_en sys) 0)%Q /\ (0 < ft_charge f)%Q /\
  get_charges_and_volumes sys false Pauling = Done (c, v) /\ (nth a c 0 < nth b c 0)%Q.
Proof.
  pose (f := (Feature false 4 8 [0; 1]%nat [0; 1]%nat [1; 1] [1; 1])%Q).
  exists (System 2%nat [f] [1; 3] [1; 1] [1; 1])%Q, f, 0, 1.
  exists [0 + 4 * (1 / (0 + 1 + 3)) * 1; 0 + 4 * (3 / (0 + 1 + 3)) * 1]%Q, [0 + 8 * (1 / (0 + 1 + 3)) * 1; 0 + 8 * (3 / (0 + 1 + 3)) * 1]%Q.
  split; [reflexivity|]. split; [reflexivity|]. split.
  { split; [discriminate|]. intros g [<-|[]] _. split; [discriminate|]. split; [intros b Hb; cbn in Hb |- *; lia|].
    intros _. split; [discriminate|]. intros [?|?]; discriminate. }
  split; [reflexivity|]. split; [reflexivity|]. split; [vm_compute; reflexivity|reflexivity].
Qed.
Print Assumptions C65_pauling_refuted.

(** What it does instead: the shares of two different atoms are proportional to their
    electronegativities. *)
Theorem C65_proportional sys f a b : neighbours false f = [a; b] -> a <> b -> sharable sys false Pauling ->
  In f (s_features sys) ->
  (fraction sys false Pauling f a * nth b (s_en sys) 0 == fraction sys false Pauling f b * nth a (s_en sys) 0)%Q.
Proof.
  intros E N (_ & HS) HI. destruct (HS f HI eq_refl) as (_ & _ & Z). rewrite E in Z. destruct (Z ltac:(cbn; lia)) as (Z' & _).
  unfold fraction. rewrite E. cbn [map]. rewrite !qsum_cons. rewrite !Nat.eqb_refl.
  destruct (Nat.eqb_spec a b); [congruence|]. destruct (Nat.eqb_spec b a); [congruence|]. cbn [map] in Z'. rewrite !qsum_cons in Z'.
  unfold raw in *. change (qsum []) with 0%Q in *. rewrite Qplus_0_r in Z'. field. exact Z'.
Qed.
Print Assumptions C65_proportional.
