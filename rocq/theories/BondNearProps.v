(** Images of bonds that miss the sites by less than the tolerance. *)
From Coq Require Import QArith Qround.
From Verif Require Import Base ChargeModel NearModel NearSpec NearProofs RootsModel RootsProofs RefineModel RefineProofs PlaneModel CoordProofs InterpProofs EnvModel EnvProps BondModel BondProps.
Local Open Scope Z_scope.

(** The position [v] is, up to the tolerance, site [s] (number [k]) in cell [cell]: [v] lies in that cell, or less than
    [tol] below it along some axes and then not at a site of the cell it lies in. *)
Definition lands (fracs : list vec) (tol : Q) (v : vec) (k : nat) (s : vec) (cell : Z * Z * Z) : Prop :=
  nth_error fracs k = Some s /\ chunk_of tol (vsubz v cell) = chunk_of tol s /\
  (vfloor v = cell \/ (vfloor (vaddq v tol) = cell /\ forall t, In t fracs -> chunk_of tol t <> chunk_of tol (vsubz v (vfloor v)))).

Lemma locate_near fracs tol v k s cell : NoDup (map (chunk_of tol) fracs) -> lands fracs tol v k s cell -> locate (map (chunk_of tol) fracs) tol v = (Z.of_nat k, cell).
Proof.
  intros N (E & C & H). assert (G : find_site_in_tol (map (chunk_of tol) fracs) (vsubz v cell) tol = Z.of_nat k).
  { apply C115_find. right. rewrite Nat2Z.id. split; [lia|]. split; [exists s; auto|]. intros k' s' K E' X. assert (k' = k); [|lia]. apply (proj1 (NoDup_nth_error _) N); [rewrite map_length; apply nth_error_Some; congruence|]. rewrite !nth_error_map, E, E'. cbn. now rewrite X, <- C. }
  unfold locate. destruct H as [<-|[<- H]].
  - rewrite G. destruct (Z.eqb_spec (Z.of_nat k) (-1)); [lia|reflexivity].
  - assert (F : find_site_in_tol (map (chunk_of tol) fracs) (vsubz v (vfloor v)) tol = -1) by (apply C115_find; left; auto). rewrite F. cbn [Z.eqb]. now rewrite G.
Qed.
Theorem C116_tolerance root fracs m tol b frac type o k l s n I J : NoDup (map (chunk_of tol) fracs) ->
  lands fracs tol (apply_op o (nth (b_site b) fracs zero3)) k s I -> lands fracs tol (vsubz (apply_op o (b_coord b)) I) l n J ->
  exists r, sym_row root fracs m tol b frac type o = Some r /\ g_site r = Z.of_nat k /\ g_neigh r = Z.of_nat l /\ g_type r = round12 type /\
    g_coord r = vround12 (vshift n J) /\ g_point r = vround12 (vplus s (vscale frac (vsub (vshift n J) s))) /\
    g_radius r = round12 (root (norm2 (vmat (vscale frac (vsub (vshift n J) s)) m))) /\ g_dist r = g_radius r /\
    g_vector r = (let '(x, y, z) := vscale frac (vsub (vshift n J) s) in let len := root (x * x + y * y + z * z) in (round12 (x / len), round12 (y / len), round12 (z / len)))%Q.
Proof.
  intros ND LS LN. unfold sym_row. fold zero3. rewrite (locate_near _ _ _ _ _ _ ND LS), (locate_near _ _ _ _ _ _ ND LN). destruct LS as (K & _), LN as (L & _).
  assert (LK : (k < length fracs)%nat) by (apply nth_error_Some; congruence). assert (LL : (l < length fracs)%nat) by (apply nth_error_Some; congruence). unfold np_get. rewrite !np_idx_pos, !Nat2Z.id, K, L by lia.
  eexists. split; [reflexivity|]. cbn [g_site g_neigh g_type g_coord g_point g_radius]. cbn [g_site g_neigh g_type g_coord g_point g_radius g_dist g_vector]. do 4 (split; [reflexivity|]). split; [|split; [reflexivity|]; split; [reflexivity|]; destruct s as [[s1 s2] s3], n as [[n1 n2] n3], J as [[j1 j2] j3]; reflexivity]. apply vround12_comp.
  destruct s as [[s1 s2] s3], n as [[n1 n2] n3], J as [[j1 j2] j3]. cbn. repeat split; ring.
Qed.
Print Assumptions C116_tolerance.

(** The bond from the origin to the middle of the cell, moved by an operation that is a thousandth off: the site is
    found in cell 0 although its image lies in cell -1. *)
Definition off : op := (((1, 0, 0), (0, 1, 0), (0, 0, 1)), (-(1 # 1000), 0, 0))%Q.
Example ex_off : exists r, sym_row (fun q => q) [(0, 0, 0); (1 # 2, 1 # 2, 1 # 2)]%Q ((1, 0, 0), (0, 1, 0), (0, 0, 1))%Q (1 # 50)%Q (mkBond 0 1 (1 # 2, 1 # 2, 1 # 2)%Q 1%Q) (1 # 2)%Q 0%Q off = Some r /\
  g_site r = 0 /\ g_neigh r = 1 /\ g_point r = vround12 (1 # 4, 1 # 4, 1 # 4)%Q.
Proof.
  destruct (C116_tolerance (fun q => q) [(0, 0, 0); (1 # 2, 1 # 2, 1 # 2)]%Q ((1, 0, 0), (0, 1, 0), (0, 0, 1))%Q (1 # 50)%Q (mkBond 0 1 (1 # 2, 1 # 2, 1 # 2)%Q 1%Q) (1 # 2)%Q 0%Q off 0 1
    (0, 0, 0)%Q (1 # 2, 1 # 2, 1 # 2)%Q (0, 0, 0) (0, 0, 0)) as (r & E & A & B & _ & _ & P & _).
  - vm_compute. repeat constructor; intros H; repeat destruct H as [H|H]; try discriminate; contradiction.
  - split; [reflexivity|]. split; [vm_compute; reflexivity|]. right. split; [vm_compute; reflexivity|]. intros t [<-|[<-|[]]]; vm_compute; discriminate.
  - split; [reflexivity|]. split; [vm_compute; reflexivity|]. left. vm_compute. reflexivity.
  - exists r. split; [exact E|]. split; [exact A|]. split; [exact B|]. rewrite P. vm_compute. reflexivity.
Qed.
