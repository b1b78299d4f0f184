From Verif Require Import Base GridModel GridProofs NeighModel RootsModel RootsSpec RootsProofs
  UnionModel UnionSpec UnionProofs ShiftModel ShiftSpec ShiftProofs ChargeModel CoordProofs CycleModel CycleSpec
  CycleForest CycleGroups CycleLin CycleTiny CycleProofs CycleTop CycleMain.
From Coq Require Import ZifyBool ZifyNat.

(** The periodic graph of a solid: all steps between two solid voxels. *)
Definition solid_graph (nx ny nz : Z) (neighbors : list offset) (s : arr3 bool) : list (nat * nat * offset) :=
  grid_edges nx ny nz neighbors (at3 s) (at3 s).

(** Every accumulated image offset is small. *)
Definition small_offsets (fuel n : nat) (g : groups) : Prop :=
  forall x r a b c, (x < n)%nat ->
    find_root_with_shift_nc fuel (f_par (g_f g)) (f_off (g_f g)) (Z.of_nat x) = Done (r, (a, b, c)) ->
    -250000 <= a <= 250000 /\ -250000 <= b <= 250000 /\ -250000 <= c <= 250000.

(** Going from solid [p] to solid [s] never joins two parts of [p] that both already
    wind around the cell. *)
Definition no_winding_merge (nx ny nz : Z) (neighbors : list offset) (p s : arr3 bool) : Prop :=
  forall x y a b, loops (solid_graph nx ny nz neighbors p) x a -> loops (solid_graph nx ny nz neighbors p) y b ->
    a <> (0, 0, 0) -> b <> (0, 0, 0) ->
    connected (map fst (solid_graph nx ny nz neighbors s)) x y ->
    connected (map fst (solid_graph nx ny nz neighbors p)) x y.

(** Reachable states: successive calls of get_connected_groups on growing solids. *)
Inductive reached (nx ny nz : Z) (fuel : nat) (neighbors : list offset) (vac : arr3 bool)
  : arr3 bool -> groups -> list Z -> Prop :=
| reached_init : reached nx ny nz fuel neighbors vac no_solid (groups_init (Z.to_nat (nx * ny * nz))) []
| reached_step p g dims s g' dims' :
    reached nx ny nz fuel neighbors vac p g dims ->
    (forall v, in_grid nx ny nz v -> at3 p v = true -> at3 s v = true) ->
    (forall v, in_grid nx ny nz v -> at3 s v = true -> at3 vac v = false) ->
    no_winding_merge nx ny nz neighbors p s ->
    get_connected_groups nx ny nz fuel neighbors s p vac g = Done (g', dims') ->
    small_offsets fuel (Z.to_nat (nx * ny * nz)) g' ->
    reached nx ny nz fuel neighbors vac s g' dims'.

Section Props.
Context (nx ny nz : Z) (fuel : nat) (neighbors : list offset) (vac : arr3 bool).
Hypothesis Hx : 2 <= nx.
Hypothesis Hy : 2 <= ny.
Hypothesis Hz : 2 <= nz.
Hypothesis US : unit_steps neighbors.
Notation num := (num nx ny nz).
Notation fn := (fn ny nz).
Hypothesis Hfuel : (num <= fuel)%nat.
Notation G := (solid_graph nx ny nz neighbors).

Record r_inv (s : arr3 bool) (g : groups) (R A : list (nat * nat * offset)) (seen : nat -> Prop) : Prop := {
  ri_g : g_inv nx ny nz R A seen g;
  ri_R : forall x y t, linked R x y t <-> linked (G s) x y t;
  ri_seen : forall x, seen x <-> exists v, in_grid nx ny nz v /\ at3 s v = true /\ x = fn v;
  ri_ment : forall x, mentions R x -> seen x
}.

Lemma linked_sub A B : (forall x y s, In (x, y, s) A -> linked B x y s) -> forall x y s, linked A x y s -> linked B x y s.
Proof. intros H x y s L. induction L; eauto using linked. Qed.

Lemma in_solid_graph s a b t : In (a, b, t) (G s) <->
  exists v d w, in_grid nx ny nz v /\ at3 s v = true /\ In d neighbors /\ neigh3 nx ny nz v d = (w, t) /\ at3 s w = true /\ a = fn v /\ b = fn w.
Proof.
  unfold solid_graph. rewrite grid_edges_over, in_edges_over. split; intros (v & d & w & Hv & H); exists v, d, w; (split; [now apply in_voxels|exact H]).
Qed.

Lemma small_bounded g R A : s_inv R A num (g_f g) -> small_offsets fuel num g -> bounded (g_f g).
Proof.
  intros I H x r c X. destruct (rpos_lt _ _ _ _ _ _ _ I X) as (Lx & _). destruct c as [[a b] c].
  destruct (reaches_climb _ _ _ (rpos_reaches _ _ _ _ _ X)) as (k & K). pose proof (climb_lt_length _ _ _ _ K) as LK.
  rewrite (si_n _ _ _ _ I) in LK.
  pose proof (climb_off_spec fuel (f_par (g_f g)) (f_off (g_f g)) x r k (a, b, c) (0, 0, 0) K X ltac:(lia)) as F.
  rewrite oadd_0_l in F. unfold within, HB. eapply H; [exact Lx|]. apply F. rewrite (si_n _ _ _ _ I). apply (si_off _ _ _ _ I).
Qed.

Lemma loops_same A B : (forall x y t, linked A x y t <-> linked B x y t) -> forall x s, loops A x s <-> loops B x s.
Proof. intros H x s. apply H. Qed.
Lemma conn_same A B : (forall x y t, linked A x y t <-> linked B x y t) -> forall x y, connected (map fst A) x y <-> connected (map fst B) x y.
Proof.
  intros H x y. split; intros C; apply connected_linked in C as (s & L); apply H in L; eapply linked_connected; exact L.
Qed.

Lemma step_inv p g R A seen s : r_inv p g R A seen ->
  (forall v, in_grid nx ny nz v -> at3 p v = true -> at3 s v = true) ->
  (forall v, in_grid nx ny nz v -> at3 s v = true -> at3 vac v = false) ->
  exists g', get_connected_groups nx ny nz fuel neighbors s p vac g =
      Done (g', map (fun c => Z.of_nat (length c)) (g_cycles g')) /\
    (no_winding_merge nx ny nz neighbors p s -> small_offsets fuel num g' -> exists R' A' seen', r_inv s g' R' A' seen').
Proof.
  intros [GI RR SE ME] GW VA.
  destruct (groups_step nx ny nz fuel neighbors Hx Hy Hz US Hfuel s p vac g R A seen GI) as (g' & A' & OK & I' & M' & ST).
  { intros u Gu MU. apply ME, SE in MU as (v & Gv & Pv & Q). apply fn_inj with (nx := nx) in Q; auto. now subst. }
  exists g'. split; [exact OK|]. intros NM SO. set (E := grid_edges nx ny nz neighbors (is_new s p vac) (at3 s)) in *.
  set (seen' := fun x => _) in M'.
  assert (NW : forall v, in_grid nx ny nz v -> is_new s p vac v = true <-> at3 s v = true /\ at3 p v = false).
  { intros v Gv. unfold is_new. destruct (at3 s v) eqn:SV; [rewrite (VA v Gv SV)|]; destruct (at3 p v), (at3 vac v); cbn; intuition discriminate. }
  assert (IE : forall a b t, In (a, b, t) E <-> exists v d w, in_grid nx ny nz v /\ at3 s v = true /\ at3 p v = false /\ In d neighbors /\
     neigh3 nx ny nz v d = (w, t) /\ at3 s w = true /\ a = fn v /\ b = fn w).
  { intros a b t. unfold E. rewrite grid_edges_over, in_edges_over. split.
    - intros (v & d & w & Hv & N & H). apply in_voxels in Hv. apply NW in N as [N1 N2]; [|exact Hv]. exists v, d, w. tauto.
    - intros (v & d & w & Hv & N1 & N2 & H). exists v, d, w. split; [now apply in_voxels|]. split; [now apply NW|exact H]. }
  assert (RR' : forall x y t, linked (R ++ E) x y t <-> linked (G s) x y t).
  { intros x y t. split; apply linked_sub; clear x y t; intros x y t H.
    - apply in_app_or in H as [H|H].
      + apply linked_edge in H. apply RR in H. revert H. apply linked_incl. intros [[a b] u] H.
        apply in_solid_graph in H as (v & d & w & Gv & Sv & Hd & EN & Sw & -> & ->). apply in_solid_graph. exists v, d, w.
        pose proof (neigh3_facts nx ny nz neighbors Hx Hy Hz US v d Gv Hd) as NF. rewrite EN in NF. destruct NF as (Gw & _). auto 10.
      + apply linked_edge, in_solid_graph. apply IE in H as (v & d & w & Gv & Sv & _ & H). exists v, d, w. tauto.
    - apply in_solid_graph in H as (v & d & w & Gv & Sv & Hd & EN & Sw & -> & ->).
      pose proof (neigh3_facts nx ny nz neighbors Hx Hy Hz US v d Gv Hd) as NF. rewrite EN in NF. destruct NF as (Gw & _ & _ & Hd' & EN').
      destruct (at3 p v) eqn:Pv.
      + destruct (at3 p w) eqn:Pw.
        * assert (L : linked (G p) (fn v) (fn w) t) by (apply linked_edge, in_solid_graph; exists v, d, w; auto 10).
          apply RR in L. revert L. apply linked_incl. intros e He. apply in_or_app. now left.
        * replace t with (oneg (oneg t)) by (clear; ooff). apply linked_sym, linked_edge, in_or_app. right. apply IE. exists w, (oneg d), v. auto 10.
      + apply linked_edge, in_or_app. right. apply IE. exists v, d, w. auto 10. }
  assert (SE' : forall x, seen' x <-> exists v, in_grid nx ny nz v /\ at3 s v = true /\ x = fn v).
  { intros x. unfold seen'. split.
    - intros [H|[(y & t & H)|(v & Hv & N & ->)]].
      + apply SE in H as (v & Gv & Pv & ->). exists v. auto.
      + rewrite !IE in H. destruct H as [(v & d & w & Gv & Sv & _ & _ & _ & _ & -> & _)|(v & d & w & Gv & _ & _ & Hd & EN & Sw & _ & ->)].
        * exists v. auto.
        * pose proof (neigh3_facts nx ny nz neighbors Hx Hy Hz US v d Gv Hd) as NF. rewrite EN in NF. destruct NF as (Gw & _). exists w. auto.
      + apply in_voxels in Hv. apply NW in N as [N _]; [|exact Hv]. exists v. auto.
    - intros (v & Gv & Sv & ->). destruct (at3 p v) eqn:Pv.
      + left. apply SE. exists v. auto.
      + right. right. exists v. split; [now apply in_voxels|]. split; [now apply NW|reflexivity]. }
  exists (R ++ E), A', seen'. split; [|exact RR'|exact SE'|].
  - apply ST; [|eapply small_bounded; eauto]. intros x y a b LA LB Na Nb C.
    apply (conn_same _ _ RR). apply (conn_same _ _ RR') in C. apply (loops_same _ _ RR) in LA, LB. exact (NM x y a b LA LB Na Nb C).
  - intros x H. apply mentions_app in H as [H|H]; [left; now apply ME|right; now left].
Qed.

Lemma init_r_inv : r_inv no_solid (groups_init num) [] [] (fun _ => False).
Proof.
  split.
  - apply g_init.
  - intros x y t. split; apply linked_sub; clear; intros x y t H; [destruct H|].
    apply in_solid_graph in H as (v & d & w & _ & SV & _). destruct v as [[? ?] ?]. discriminate.
  - intros x. split; [intros []|]. intros ([[? ?] ?] & _ & SV & _). discriminate.
  - intros x (y & t & [[]|[]]).
Qed.

Lemma reached_inv s g dims : reached nx ny nz fuel neighbors vac s g dims ->
  (exists R A seen, r_inv s g R A seen) /\ dims = map (fun c => Z.of_nat (length c)) (g_cycles g).
Proof.
  induction 1 as [|p g dims s g' dims' H (( R & A & seen & RI) & _) GW VA NM OK SO].
  - split; [|reflexivity]. exists [], [], (fun _ => False). apply init_r_inv.
  - destruct (step_inv p g R A seen s RI GW VA) as (g1 & OK1 & K). rewrite OK in OK1. injection OK1 as <- ->. split; [|reflexivity]. now apply K.
Qed.

(** Every call succeeds. *)
Theorem C38_total p g dims s : reached nx ny nz fuel neighbors vac p g dims ->
  (forall v, in_grid nx ny nz v -> at3 p v = true -> at3 s v = true) ->
  (forall v, in_grid nx ny nz v -> at3 s v = true -> at3 vac v = false) ->
  exists g' dims', get_connected_groups nx ny nz fuel neighbors s p vac g = Done (g', dims').
Proof.
  intros RE GW VA. destruct (reached_inv _ _ _ RE) as ((R & A & seen & RI) & _).
  destruct (step_inv p g R A seen s RI GW VA) as (g' & OK & _). eauto.
Qed.

(** The dimensionality reported at a solid voxel is the rank of the lattice of the
    shifts of the closed loops through it. *)
Theorem C38_rank s g dims v : reached nx ny nz fuel neighbors vac s g dims ->
  in_grid nx ny nz v -> at3 s v = true ->
  exists k, get_domain_dimensionality ny nz fuel g dims v = Done (Z.of_nat k) /\
    rank_of (loops (G s) (Z.to_nat (flat3 ny nz v))) k.
Proof.
  intros RE Gv Sv. destruct (reached_inv _ _ _ RE) as ((R & A & seen & [[I M GR [LG GC]] RR SE ME]) & ->).
  destruct (fn_flat nx ny nz Hx Hy Hz v Gv) as [Fv Lv].
  destruct (s_rpos R A num (g_f g) (fn v) I Lv) as (r & c & X).
  assert (SV : seen (fn v)) by (apply SE; eauto).
  pose proof (in_mask_root nx ny nz R A seen (g_f g) (fn v) r c I M SV X) as HR. rewrite <- GR in HR.
  destruct (find_eq nx ny nz fuel Hfuel R A (g_f g) I _ _ (fn v) r c (st_ok_init nx ny nz _ _ _ I) X) as (p1 & o1 & FE & _).
  unfold get_domain_dimensionality. rewrite <- Fv, FE. cbn [obind]. rewrite Nat2Z.id.
  assert (FD : forall (l : list Z) (m : list (list vec)), length m = length l -> In (Z.of_nat r) l ->
    exists t cyc, nth_error l t = Some (Z.of_nat r) /\ nth_error m t = Some cyc /\
      find (fun rd => fst rd =? Z.of_nat r) (combine l (map (fun c => Z.of_nat (length c)) m)) = Some (Z.of_nat r, Z.of_nat (length cyc))).
  { clear. induction l as [|a l IH]; intros [|b m] L H; cbn in L; try discriminate; [destruct H|]. cbn [map combine find fst].
    destruct (Z.eqb_spec a (Z.of_nat r)) as [->|N].
    - exists 0%nat, b. auto.
    - destruct H as [->|H]; [congruence|]. destruct (IH m ltac:(lia) H) as (t & cyc & H1 & H2 & H3). exists (S t), cyc. auto. }
  destruct (FD (g_roots g) (g_cycles g) LG HR) as (t & cyc & Ht & Hc & FF). rewrite FF. cbn [snd].
  exists (length cyc). split; [reflexivity|]. destruct (GC t r cyc Ht Hc) as [(b & GS & _ & LB) SP].
  assert (C : connected (pr R) (fn v) r) by apply (rpos_lt _ _ _ _ _ _ _ I X).
  exists b. split; [symmetry; eapply gs_len; eauto|]. split; [|split].
  - intros q Hq. apply (loops_same _ _ RR). apply (loops_move R r); [now apply conn_sym|auto].
  - eapply gs_independent; eauto.
  - intros q Hq. apply (gs_span cyc b GS). apply SP. apply (loops_move R (fn v)); [exact C|]. now apply (loops_same _ _ RR).
Qed.

(** Outside the solid the dimensionality is zero. *)
Theorem C38_outside s g dims v : reached nx ny nz fuel neighbors vac s g dims ->
  in_grid nx ny nz v -> at3 s v = false -> get_domain_dimensionality ny nz fuel g dims v = Done 0.
Proof.
  intros RE Gv Sv. destruct (reached_inv _ _ _ RE) as ((R & A & seen & [[I M GR [LG GC]] RR SE ME]) & ->).
  destruct (fn_flat nx ny nz Hx Hy Hz v Gv) as [Fv Lv].
  destruct (s_rpos R A num (g_f g) (fn v) I Lv) as (r & c & X).
  destruct (find_eq nx ny nz fuel Hfuel R A (g_f g) I _ _ (fn v) r c (st_ok_init nx ny nz _ _ _ I) X) as (p1 & o1 & FE & _).
  unfold get_domain_dimensionality. rewrite <- Fv, FE. cbn [obind].
  destruct (find _ _) as [rd|] eqn:FF; [|reflexivity]. exfalso. apply find_some in FF as [Hin Eq]. destruct rd as [z d]. cbn [fst] in Eq.
  apply in_combine_l in Hin. apply Z.eqb_eq in Eq. subst z. rewrite GR in Hin. apply in_nonzero in Hin.
  apply (mi_mask _ _ _ _ M) in Hin as (_ & x & Sx & Cx).
  assert (C : connected (pr R) (fn v) x).
  { eapply conn_trans; [apply (rpos_lt _ _ _ _ _ _ _ I X)|]. now apply conn_sym. }
  assert (NS : ~ seen (fn v)). { intros S. apply SE in S as (u & Gu & Su & Q). apply fn_inj with (nx := nx) in Q; auto. subst u. congruence. }
  apply unmentioned_alone in C; [subst x; contradiction|]. intros H. apply NS, ME, H.
Qed.

(** Two solid voxels share an entry exactly when a path of solid voxels joins them. *)
Theorem C38_groups s g dims v w : reached nx ny nz fuel neighbors vac s g dims ->
  in_grid nx ny nz v -> in_grid nx ny nz w ->
  exists p1 o1 r1 c1 p2 o2 r2 c2,
    find_root_with_shift fuel (f_par (g_f g)) (f_off (g_f g)) (flat3 ny nz v) = Done (p1, o1, r1, c1) /\
    find_root_with_shift fuel (f_par (g_f g)) (f_off (g_f g)) (flat3 ny nz w) = Done (p2, o2, r2, c2) /\
    (r1 = r2 <-> connected (map fst (G s)) (Z.to_nat (flat3 ny nz v)) (Z.to_nat (flat3 ny nz w))) /\
    (at3 s v = true -> In r1 (g_roots g)) /\ length dims = length (g_roots g).
Proof.
  intros RE Gv Gw. destruct (reached_inv _ _ _ RE) as ((R & A & seen & [[I M GR [LG GC]] RR SE ME]) & ->).
  destruct (fn_flat nx ny nz Hx Hy Hz v Gv) as [Fv Lv]. destruct (fn_flat nx ny nz Hx Hy Hz w Gw) as [Fw Lw].
  destruct (s_rpos R A num (g_f g) (fn v) I Lv) as (r & c & X). destruct (s_rpos R A num (g_f g) (fn w) I Lw) as (r' & c' & X').
  destruct (find_eq nx ny nz fuel Hfuel R A (g_f g) I _ _ (fn v) r c (st_ok_init nx ny nz _ _ _ I) X) as (p1 & o1 & FE & _).
  destruct (find_eq nx ny nz fuel Hfuel R A (g_f g) I _ _ (fn w) r' c' (st_ok_init nx ny nz _ _ _ I) X') as (p2 & o2 & FE' & _).
  exists p1, o1, (Z.of_nat r), c, p2, o2, (Z.of_nat r'), c'. rewrite <- Fv, <- Fw. split; [exact FE|]. split; [exact FE'|].
  destruct (rpos_lt _ _ _ _ _ _ _ I X) as (_ & _ & R1 & C1). destruct (rpos_lt _ _ _ _ _ _ _ I X') as (_ & _ & R2 & C2).
  split; [|split].
  - rewrite !Nat2Z.id.
    rewrite <- (conn_same _ _ RR). split.
    + intros E. assert (r = r') by lia. subst r'. eapply conn_trans; [exact C1|]. now apply conn_sym.
    + intros C. f_equal. apply (root_unique R A num (g_f g) r r' I R1 R2). eapply conn_trans; [apply conn_sym; exact C1|]. eapply conn_trans; [exact C|exact C2].
  - intros Sv. rewrite GR. eapply in_mask_root; [exact I|exact M|apply SE; eauto|exact X].
  - now rewrite map_length, LG.
Qed.
End Props.

(** A single call on a fresh state needs no condition on merging. *)
Theorem C38_fresh nx ny nz fuel neighbors vac s g dims v : 2 <= nx -> 2 <= ny -> 2 <= nz ->
  unit_steps neighbors -> (Z.to_nat (nx * ny * nz) <= fuel)%nat ->
  (forall v, in_grid nx ny nz v -> at3 s v = true -> at3 vac v = false) ->
  get_connected_groups nx ny nz fuel neighbors s no_solid vac (groups_init (Z.to_nat (nx * ny * nz))) = Done (g, dims) ->
  small_offsets fuel (Z.to_nat (nx * ny * nz)) g ->
  in_grid nx ny nz v -> at3 s v = true ->
  exists k, get_domain_dimensionality ny nz fuel g dims v = Done (Z.of_nat k) /\
    rank_of (loops (solid_graph nx ny nz neighbors s) (Z.to_nat (flat3 ny nz v))) k.
Proof.
  intros Hx Hy Hz US Hf VA OK SO Gv Sv. apply (C38_rank nx ny nz fuel neighbors vac Hx Hy Hz US Hf s g dims v); [|exact Gv|exact Sv].
  eapply reached_step; [apply reached_init| |exact VA| |exact OK|exact SO].
  - intros [[? ?] ?] _ H. discriminate.
  - intros x y a b LA LB Na Nb _. exfalso. apply Na.
    assert (K : forall x y t, linked (solid_graph nx ny nz neighbors no_solid) x y t -> t = (0, 0, 0)).
    { clear. intros x y t L. induction L as [x|x y t H|x y t H IH|x y z t u H1 IH1 H2 IH2]; auto.
      - unfold solid_graph in H. rewrite grid_edges_over, in_edges_over in H. destruct H as ([[? ?] ?] & d & w & _ & S & _). discriminate.
      - now rewrite IH.
      - now rewrite IH1, IH2. }
    eapply K; exact LA.
Qed.
Print Assumptions C38_total.
Print Assumptions C38_rank.
Print Assumptions C38_outside.
Print Assumptions C38_groups.
Print Assumptions C38_fresh.

(** ** Examples *)
Definition faces : list offset := [(1,0,0); (-1,0,0); (0,1,0); (0,-1,0); (0,0,1); (0,0,-1)].

Example faces_unit : unit_steps faces.
Proof.
  intros a b c H. cbn in H. repeat (destruct H as [H|H]; [injection H as <- <- <-; repeat split; try lia; try (intros [=]); cbn; tauto|]). destruct H.
Qed.

Definition line_x : arr3 bool := fun i j k => (j =? 0) && (k =? 0).
Definition plane_y : arr3 bool := fun i j k => j =? 0.
Definition full : arr3 bool := fun _ _ _ => true.

Definition run1 (s : arr3 bool) := get_connected_groups 2 2 2 8 faces s no_solid no_solid (groups_init 8).
Example line_dims : match run1 line_x with Done (_, d) => d = [1] | _ => False end.
Proof. vm_compute. reflexivity. Qed.
Example plane_dims : match run1 plane_y with Done (_, d) => d = [2] | _ => False end.
Proof. vm_compute. reflexivity. Qed.
Example full_dims : match run1 full with Done (_, d) => d = [3] | _ => False end.
Proof. vm_compute. reflexivity. Qed.

(** The hypotheses of [C38_fresh] hold for the full solid, whose rank is three. *)
Example full_rank : exists g dims, run1 full = Done (g, dims) /\
  get_domain_dimensionality 2 2 8 g dims (1, 1, 0) = Done 3 /\
  rank_of (loops (solid_graph 2 2 2 faces full) 6) 3.
Proof.
  destruct (run1 full) as [[g dims]| |] eqn:E; [|vm_compute in E; discriminate|vm_compute in E; discriminate].
  exists g, dims. split; [reflexivity|].
  assert (D : get_domain_dimensionality 2 2 8 g dims (1, 1, 0) = Done 3).
  { assert (K : match run1 full with Done (g, dims) => get_domain_dimensionality 2 2 8 g dims (1, 1, 0) | _ => Raised end = Done 3) by (vm_compute; reflexivity).
    now rewrite E in K. }
  split; [exact D|].
  assert (SO : small_offsets 8 8 g).
  { assert (K : match run1 full with Done (g, _) => forallb (fun x => match find_root_with_shift_nc 8 (f_par (g_f g)) (f_off (g_f g)) (Z.of_nat x) with
        Done (_, (a, b, c)) => (-9 <=? a) && (a <=? 9) && (-9 <=? b) && (b <=? 9) && (-9 <=? c) && (c <=? 9) | _ => false end) (seq 0 8) | _ => false end = true) by (vm_compute; reflexivity).
    rewrite E in K. rewrite forallb_forall in K. intros x r a b c Hx F. specialize (K x ltac:(apply in_seq; lia)). rewrite F in K. lia. }
  destruct (C38_fresh 2 2 2 8 faces no_solid full g dims (1, 1, 0)) as (k & Dk & RK); try lia; auto using faces_unit.
  - intros [[? ?] ?] _ _. reflexivity.
  - unfold in_grid; lia.
  - rewrite D in Dk. injection Dk as Dk. assert (k = 3%nat) by lia. subst k. exact RK.
Qed.

(** Growing a solid in two calls: two lines along x, then a bridge between them.  The
    list of the merged domain holds the cycle of each line, so it is reported as
    two-dimensional although every closed loop only winds along x. *)
Definition lines2 : arr3 bool := fun i j k => ((j =? 0) || (j =? 2)) && (k =? 0).
Definition bridged : arr3 bool := fun i j k => (((j =? 0) || (j =? 2)) && (k =? 0)) || ((i =? 0) && (j =? 1) && (k =? 0)).

Lemma bridged_flat x y s : linked (solid_graph 2 4 2 faces bridged) x y s -> exists a, s = (a, 0, 0).
Proof.
  assert (K : forallb (fun e : nat * nat * offset => let '(_, (_, b, c)) := e in (b =? 0) && (c =? 0)) (solid_graph 2 4 2 faces bridged) = true) by (vm_compute; reflexivity).
  rewrite forallb_forall in K.
  induction 1 as [x|x y s H|x y s H (a & ->)|x y z s t H1 (a & ->) H2 (b & ->)].
  - now exists 0.
  - specialize (K _ H). destruct s as [[a b] c]. exists a. f_equal; [f_equal|]; lia.
  - now exists (- a).
  - now exists (a + b).
Qed.

Theorem C120_merge_refuted : exists g1 d1 g2 d2,
  get_connected_groups 2 4 2 16 faces lines2 no_solid no_solid (groups_init 16) = Done (g1, d1) /\
  get_connected_groups 2 4 2 16 faces bridged lines2 no_solid g1 = Done (g2, d2) /\
  get_domain_dimensionality 4 2 16 g2 d2 (0, 0, 0) = Done 2 /\
  ~ rank_of (loops (solid_graph 2 4 2 faces bridged) 0) 2.
Proof.
  destruct (get_connected_groups 2 4 2 16 faces lines2 no_solid no_solid (groups_init 16)) as [[g1 d1]| |] eqn:E1; [|vm_compute in E1; discriminate|vm_compute in E1; discriminate].
  assert (K : match get_connected_groups 2 4 2 16 faces lines2 no_solid no_solid (groups_init 16) with
     Done (g1, _) => match get_connected_groups 2 4 2 16 faces bridged lines2 no_solid g1 with
       Done (g2, d2) => get_domain_dimensionality 4 2 16 g2 d2 (0, 0, 0) | _ => Raised end | _ => Raised end = Done 2) by (vm_compute; reflexivity).
  rewrite E1 in K. destruct (get_connected_groups 2 4 2 16 faces bridged lines2 no_solid g1) as [[g2 d2]| |] eqn:E2; [|discriminate|discriminate].
  exists g1, d1, g2, d2. split; [reflexivity|]. split; [exact E2|]. split; [exact K|].
  intros (b & Lb & HL & IND & _). clear - Lb HL IND. destruct b as [|u [|v [|? ?]]]; try discriminate Lb.
  destruct (bridged_flat 0 0 u (HL u (or_introl eq_refl))) as (a & ->).
  destruct (bridged_flat 0 0 v (HL v (or_intror (or_introl eq_refl)))) as (c & ->).
  cbn [map] in IND. destruct (Z.eq_dec c 0) as [->|N].
  - specialize (IND [0%Q; 1%Q] eq_refl). assert (H : veq (lincomb [0%Q; 1%Q] [qoff (a, 0, 0); qoff (0, 0, 0)]) vzero).
    { unfold veq, lincomb, qoff, vadd, scale, vzero. repeat split; ring. }
    apply IND in H. inversion H as [|? ? _ H']; subst. inversion H' as [|? ? H'' _]; subst. discriminate.
  - specialize (IND [inject_Z c; inject_Z (- a)] eq_refl).
    assert (H : veq (lincomb [inject_Z c; inject_Z (- a)] [qoff (a, 0, 0); qoff (c, 0, 0)]) vzero).
    { unfold veq, lincomb, qoff, vadd, scale, vzero. rewrite inject_Z_opp. repeat split; ring. }
    apply IND in H. inversion H as [|? ? H' _]; subst. unfold Qeq in H'. cbn in H'. lia.
Qed.
Print Assumptions C120_merge_refuted.

(** Two planes and a bridge are even reported as four-dimensional. *)
Example four_dimensional :
  match get_connected_groups 2 4 2 16 faces (fun i j k => (j =? 0) || (j =? 2)) no_solid no_solid (groups_init 16) with
  | Done (g1, d1) => match get_connected_groups 2 4 2 16 faces (fun i j k => (j =? 0) || (j =? 2) || ((i =? 0) && (j =? 1) && (k =? 0)))
                             (fun i j k => (j =? 0) || (j =? 2)) no_solid g1 with
      Done (_, d2) => (d1, d2) = ([2; 2], [4]) | _ => False end
  | _ => False end.
Proof. vm_compute. reflexivity. Qed.
