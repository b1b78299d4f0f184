(** C35, C36 and C58: bifurcation domains. *)
From Coq Require Import QArith Sorting.Sorted Lqa.
From Verif Require Import Base GridModel NeighModel RootsModel UnionModel UnionSpec BifModel BifSpec BifLevels BifTree BifTop.
Local Open Scope Z_scope.

(** C35: at every value [w] up to the highest connection, the domains recorded at the
    lowest recorded value at or above [w] are exactly the connected components of the
    basins joined at or above [w]; recorded values are connection values in strictly
    decreasing order. *)
Theorem C35_groups fuel order dimf cs n : conns_ok cs n -> (n <= fuel)%nat ->
  (forall i, In i order <-> (i < n)%nat) ->
  exists ls u, domain_levels fuel order dimf cs n = Done (ls, u) /\
    StronglySorted (fun a b => (lv_value b < lv_value a)%Q) ls /\
    (forall l, In l ls -> exists i j, In (i, j, lv_value l) cs) /\
    forall w, (exists i j v, In (i, j, v) cs /\ (w <= v)%Q) ->
      exists l, In l ls /\ (w <= lv_value l)%Q /\
        (forall l', In l' ls -> (w <= lv_value l')%Q -> (lv_value l <= lv_value l')%Q) /\
        components (joins cs w) (map d_group (lv_doms l)).
Proof.
  intros OK HF HO. destruct (domain_levels_correct fuel order dimf cs n OK HF HO) as (ls & u & E & _ & SO & LV & _ & SH).
  exists ls, u. split; [exact E|]. split; [exact SO|]. split; [intros l Hl; apply (LV l Hl)|]. exact SH.
Qed.
Print Assumptions C35_groups.

(** C35: the dimensionality shown for a domain at a connection value is the one computed
    at that value for its lowest basin, as long as the loop has not stopped at a single
    three-dimensional domain with all basins. *)
Theorem C35_dims fuel order dimf cs n ls u : conns_ok cs n -> (n <= fuel)%nat ->
  (forall i, In i order <-> (i < n)%nat) -> domain_levels fuel order dimf cs n = Done (ls, u) ->
  forall w, In w (values_desc (map snd cs)) ->
    exists l, In l ls /\ (w <= lv_value l)%Q /\
      (forall l', In l' ls -> (w <= lv_value l')%Q -> (lv_value l <= lv_value l')%Q) /\
      ((forall t, In t (lv_doms l) -> d_dim t = dimf w (hd 0%nat (d_group t))) \/
       exists t, lv_doms l = [t] /\ length (d_group t) = n /\ d_dim t = 3).
Proof.
  intros OK HF HO E w Hw. destruct (domain_levels_correct fuel order dimf cs n OK HF HO) as (ls' & u' & E' & _ & _ & _ & CV & _).
  rewrite E in E'. injection E' as <- <-. destruct (CV w Hw) as (l & Hl & Wl & Ml & _ & D). exists l.
  split; [exact Hl|]. split; [exact Wl|]. split; [exact Ml|]. destruct D as [D|D]; [now left|]. right.
  unfold complete in D. destruct (lv_doms l) as [|t [|? ?]]; try discriminate. apply andb_prop in D as [D1 D2].
  exists t. split; [reflexivity|]. split; [now apply Nat.eqb_eq|now apply Z.eqb_eq].
Qed.
Print Assumptions C35_dims.

(** C35: an id always stands for the same basins and dimensionality, on a contiguous
    range of levels; between consecutive levels an unchanged domain keeps its id; the ids
    used are exactly 0, ..., u-1. *)
Theorem C35_identity fuel order dimf cs n ls u : conns_ok cs n -> (n <= fuel)%nat ->
  (forall i, In i order <-> (i < n)%nat) -> domain_levels fuel order dimf cs n = Done (ls, u) ->
  (forall a b c t t', (a <= b <= c)%nat -> (c < length ls)%nat -> In t (at_lv ls c) -> In t' (at_lv ls a) ->
     d_id t = d_id t' -> t = t' /\ In t (at_lv ls b)) /\
  (forall j t t', In t (at_lv ls (S j)) -> In t' (at_lv ls j) -> d_group t = d_group t' -> d_dim t = d_dim t' ->
     d_id t = d_id t') /\
  (forall k, (k < u)%nat <-> exists j t, In t (at_lv ls j) /\ d_id t = k).
Proof. exact (identity_correct fuel order dimf cs n ls u). Qed.
Print Assumptions C35_identity.

(** C36: the domains form a forest.  Every domain is a component at some connection
    value and every component at any value is a domain; domains are nested or disjoint;
    the parent of a domain is the smallest earlier domain containing it, and disappears
    at the value where the child appears; domains without parent are maximal. *)
Theorem C36_forest fuel order dimf maxref min_data cs n : conns_ok cs n -> (n <= fuel)%nat ->
  (forall i, In i order <-> (i < n)%nat) -> cs <> [] -> (forall i j v, In (i, j, v) cs -> (min_data <= v)%Q) ->
  exists recs, find_domain_bifurcations fuel order dimf maxref min_data cs n = Done recs /\ forest cs maxref min_data recs.
Proof. exact (forest_correct fuel order dimf maxref min_data cs n). Qed.
Print Assumptions C36_forest.

(** C58: upper values.  A domain with a child disappears where the child appears; a
    single basin without children, other than a root, ends at its maximum. *)
Theorem C58_upper_value fuel order dimf maxref min_data cs n recs : conns_ok cs n -> (n <= fuel)%nat ->
  (forall i, In i order <-> (i < n)%nat) -> cs <> [] -> (forall i j v, In (i, j, v) cs -> (min_data <= v)%Q) ->
  find_domain_bifurcations fuel order dimf maxref min_data cs n = Done recs ->
  forall i d, nth_error recs i = Some d ->
    (forall d', In d' recs -> b_parent d' = Z.of_nat i -> b_max d = Some (b_min d')) /\
    (forall x, b_parent d <> -1 -> b_basins d = [x] -> (forall d', In d' recs -> b_parent d' <> Z.of_nat i) ->
       b_max d = Some (maxref x)).
Proof.
  intros OK HF HO NE MD E i d Hi. destruct (forest_correct fuel order dimf maxref min_data cs n OK HF HO NE MD) as (recs' & E' & F).
  rewrite E in E'. injection E' as <-. split.
  - intros d' Hd' P. apply In_nth_error in Hd' as (c & Hc). destruct (fo_parent _ _ _ _ F c d' Hc) as (p & dp & P' & _ & Ep & _ & _ & _ & M & _); [lia|].
    assert (p = i) by lia. subst p. rewrite Hi in Ep. injection Ep as <-. exact M.
  - intros x P B N. exact (fo_leaf _ _ _ _ F i d x Hi P B N).
Qed.
Print Assumptions C58_upper_value.

(** ** Examples: three basins in a row; the last joins at 1, where the whole becomes 3D. *)
Definition ex_cs : list conn :=
  [(0, 0, 5#1); (1, 1, 4#1); (2, 2, 3#1); (0, 1, 2#1); (1, 2, 1#1)]%nat.
Definition ex_dim (v : Q) (b : nat) : Z := if Qle_bool v (1#1) then 3 else 0.

Example C35_example : domain_levels 3 [2; 0; 1]%nat ex_dim ex_cs 3 =
  Done ([Lv (5#1) [([0], 0, 0%Z)]; Lv (4#1) [([0], 0, 0%Z); ([1], 1, 0%Z)];
         Lv (3#1) [([0], 0, 0%Z); ([1], 1, 0%Z); ([2], 2, 0%Z)]; Lv (2#1) [([0; 1], 3, 0%Z); ([2], 2, 0%Z)];
         Lv (1#1) [([0; 1; 2], 4, 3%Z)]]%nat, 5%nat).
Proof. vm_compute. reflexivity. Qed.

Example C36_example : find_domain_bifurcations 3 [2; 0; 1]%nat ex_dim (fun b => inject_Z (5 - Z.of_nat b)) 0 ex_cs 3 =
  Done [BD [0; 1; 2]%nat 0 (Some (1#1)) 3 (-1); BD [0; 1]%nat (1#1) (Some (2#1)) 0 0;
        BD [2]%nat (1#1) (Some (3#1)) 0 0; BD [0]%nat (2#1) (Some (5#1)) 0 1; BD [1]%nat (2#1) (Some (4#1)) 0 1].
Proof. vm_compute. reflexivity. Qed.

Example C36_hyps : conns_ok ex_cs 3 /\ (forall i, In i [2; 0; 1]%nat <-> (i < 3)%nat).
Proof.
  split.
  - intros i j v H. cbn in H. repeat (destruct H as [[= <- <- <-]|H]; [split; [lia|split; [lia|vm_compute; reflexivity]]|]). destruct H.
  - intros i. cbn. lia.
Qed.

(** C58 for the remaining domains: a domain that is both a root and a leaf (a
    single isolated basin, or basins joined at their common maximum) keeps the
    uninitialised [np.empty] value as its maximum. *)
Theorem C146_root_refuted : exists fuel order dimf maxref min_data cs n recs d,
  conns_ok cs n /\ (n <= fuel)%nat /\ (forall i, In i order <-> (i < n)%nat) /\
  find_domain_bifurcations fuel order dimf maxref min_data cs n = Done recs /\ In d recs /\
  b_basins d = [1%nat] /\ b_max d = None.
Proof.
  exists 2%nat, [0; 1]%nat, (fun _ _ => 0), (fun b => 5#1), 0%Q, [(0, 0, 5#1); (1, 1, 5#1)]%nat, 2%nat.
  do 2 eexists. split; [|split; [lia|split; [|split; [vm_compute; reflexivity|split; [right; left; reflexivity|auto]]]]].
  - intros i j v H. cbn in H. repeat (destruct H as [[= <- <- <-]|H]; [split; [lia|split; [lia|vm_compute; reflexivity]]|]). destruct H.
  - intros i. cbn. lia.
Qed.
Print Assumptions C146_root_refuted.
