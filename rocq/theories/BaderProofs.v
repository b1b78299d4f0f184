From Verif Require Import Base GridModel NeighModel BaderModel.

Section Obj.
Context {X Meth : Type}.
Variable run_method : Meth -> grid X -> grid X -> value X -> value X -> option (run_out X).
Variable relabelled : X -> X.
Variable values_at : grid X -> value X -> X.
Variable rounded : value X -> value X.
Variable above : value X -> Q -> X.
Variable edges_of : value X -> X -> X.
Variable assign : value X -> value X -> value X -> value X -> value X -> assigned X.
Variable surface : value X -> value X -> value X -> X -> value X -> X * X.
Notation obj := (obj X Meth).
Notation settings := (settings X Meth).
Notation value := (value X).
Arguments VAny {X}. Arguments VMask {X}. Arguments VNum {X}. Arguments VStruct {X}.
Arguments o_set {X Meth}. Arguments o_cache {X Meth}.
Arguments s_charge {X Meth}. Arguments s_ref {X Meth}. Arguments s_method {X Meth}. Arguments s_tol {X Meth}. Arguments s_use_ref {X Meth}. Arguments s_basin_tol {X Meth}.
Notation get := (get X Meth run_method relabelled values_at rounded above edges_of assign surface).
Notation exec := (exec X Meth run_method relabelled values_at rounded above edges_of assign surface).

(** What each property is, as a function of the settings alone. *)
Definition sp_struct (s : settings) : value := VStruct (g_volume X (s_ref s)) (relabelled (g_rest X (s_ref s))).
Definition vac_grid (s : settings) := if s_use_ref s then s_ref s else s_charge s.
Definition sp_mask (s : settings) : value :=
  if is_false (s_tol s) then VMask (fun _ _ _ => false)
  else VMask (fun i j k => Qltb (g_total X (vac_grid s) i j k) (tol_value (s_tol s) * g_volume X (s_ref s))).
Definition sp_num (s : settings) : value := VNum (count_true X (vac_grid s) (sp_mask s)).
Definition sp_run (s : settings) : option (run_out X) := run_method (s_method s) (s_charge s) (s_ref s) (sp_mask s) (sp_num s).
Definition sp_assign (s : settings) : option (assigned X) :=
  option_map (fun r => assign (sp_struct s) (VAny (r_frac X r)) (VAny (r_labels X r)) (rounded (VAny (r_charges X r))) (rounded (VAny (r_volumes X r)))) (sp_run s).
Definition any {A} (f : A -> X) (o : option A) : option value := option_map (fun a => VAny (f a)) o.
Definition sp_bsurf (s : settings) : option (X * X) :=
  option_map (fun r => surface (VAny (r_labels X r)) (VAny (r_frac X r)) (VAny (edges_of (VAny (r_labels X r)) (g_rest X (s_ref s)))) (g_rest X (s_ref s)) (sp_struct s)) (sp_run s).
Definition sp_asurf (s : settings) : option (X * X) :=
  option_map (fun a => surface (VAny (a_labels X a)) (sp_struct s) (VAny (edges_of (VAny (a_labels X a)) (g_rest X (s_ref s)))) (g_rest X (s_ref s)) (sp_struct s)) (sp_assign s).
Definition raw (s : settings) (p : prop) : option value :=
  match p with
  | structure => Some (sp_struct s) | vacuum_mask => Some (sp_mask s) | num_vacuum => Some (sp_num s)
  | basin_labels => any (r_labels X) (sp_run s) | basin_maxima_frac => any (r_frac X) (sp_run s)
  | basin_maxima_vox => any (r_vox X) (sp_run s) | basin_maxima_ref_values => any (r_ref_values X) (sp_run s)
  | basin_charges => any (r_charges X) (sp_run s) | basin_volumes => any (r_volumes X) (sp_run s)
  | vacuum_charge => any (r_vcharge X) (sp_run s) | vacuum_volume => any (r_vvolume X) (sp_run s)
  | basin_maxima_charge_values => any (fun r => values_at (s_charge s) (VAny (r_frac X r))) (sp_run s)
  | significant_basins => any (fun r => above (rounded (VAny (r_charges X r))) (s_basin_tol s)) (sp_run s)
  | basin_edges => any (fun r => edges_of (VAny (r_labels X r)) (g_rest X (s_ref s))) (sp_run s)
  | basin_atoms => any (a_atoms X) (sp_assign s) | basin_atom_dists => any (a_dists X) (sp_assign s)
  | atom_labels => any (a_labels X) (sp_assign s) | atom_charges => any (a_charges X) (sp_assign s)
  | atom_volumes => any (a_volumes X) (sp_assign s)
  | atom_edges => any (fun a => edges_of (VAny (a_labels X a)) (g_rest X (s_ref s))) (sp_assign s)
  | basin_min_surface_distances => any fst (sp_bsurf s) | basin_avg_surface_distances => any snd (sp_bsurf s)
  | atom_min_surface_distances => any fst (sp_asurf s) | atom_avg_surface_distances => any snd (sp_asurf s)
  end.
(** Properties whose getter rounds. *)
Definition rounds (p : prop) : bool :=
  match p with
  | basin_maxima_charge_values | basin_maxima_ref_values | basin_charges | basin_volumes | vacuum_charge | vacuum_volume
  | basin_min_surface_distances | basin_avg_surface_distances | basin_atom_dists | atom_charges | atom_volumes
  | atom_min_surface_distances | atom_avg_surface_distances => true
  | _ => false
  end.
Definition shown (s : settings) (p : prop) : option value := option_map (if rounds p then rounded else id) (raw s p).

Definition coherent (o : obj) : Prop := forall p v, o_cache o p = Some v -> raw (o_set o) p = Some v.

(** [m] on a coherent object with settings [s] gives [r], keeping settings and coherence. *)
Definition Ok {A} (s : settings) (m : M X Meth A) (r : option A) : Prop :=
  forall o, o_set o = s -> coherent o -> o_set (fst (m o)) = s /\ coherent (fst (m o)) /\ snd (m o) = r.

Lemma ok_ret {A} s (a : A) : Ok s (ret X Meth a) (Some a).
Proof. intros o E C. cbn. auto. Qed.
Lemma ok_fail {A} s : Ok s (fail X Meth (A := A)) None.
Proof. intros o E C. cbn. auto. Qed.
Lemma ok_bind {A B} s (m : M X Meth A) (f : A -> M X Meth B) a r : Ok s m (Some a) -> Ok s (f a) r -> Ok s (bind X Meth m f) r.
Proof.
  intros H1 H2 o E C. destruct (H1 o E C) as (A1 & A2 & A3). unfold bind. destruct (m o) as [o' x]. cbn [fst snd] in *. subst x. now apply H2.
Qed.
Lemma ok_bind_none {A B} s (m : M X Meth A) (f : A -> M X Meth B) : Ok s m None -> Ok s (bind X Meth m f) None.
Proof.
  intros H1 o E C. destruct (H1 o E C) as (A1 & A2 & A3). unfold bind. destruct (m o) as [o' x]. cbn [fst snd] in *. subst x. auto.
Qed.
Lemma ok_sets s : Ok s (sets X Meth) (Some s).
Proof. intros o E C. cbn. subst. auto. Qed.
Lemma ok_store s p v : raw s p = Some v -> Ok s (store X Meth p v) (Some tt).
Proof.
  intros H o E C. cbn. split; [exact E|]. split; [|reflexivity]. intros q w. cbn [o_cache o_set]. destruct (prop_dec q p) as [->|N]; [|apply C].
  intros [= <-]. now rewrite E.
Qed.

(** [m] leaves [p] filled when it returns. *)
Definition fills (m : M X Meth unit) (p : prop) : Prop := forall o, snd (m o) = Some tt -> o_cache (fst (m o)) p <> None.
Lemma fills_store p v : fills (store X Meth p v) p.
Proof. intros o _. cbn. destruct (prop_dec p p); [discriminate|contradiction]. Qed.
Lemma fills_bind {A} (m : M X Meth A) f p : (forall a, fills (f a) p) -> fills (bind X Meth m f) p.
Proof.
  intros H o. unfold bind. destruct (m o) as [o' [a|]]; cbn; [apply H|discriminate].
Qed.
Lemma fills_keep (m : M X Meth unit) q v p : fills m p -> fills (bind X Meth m (fun _ => store X Meth q v)) p.
Proof.
  intros H o. unfold bind. specialize (H o). destruct (m o) as [o' [a|]]; cbn; [|discriminate]. intros _.
  destruct (prop_dec p q); [discriminate|]. destruct a. now apply H.
Qed.
Lemma fills_store_then p v (m : M X Meth unit) : (forall o, o_cache o p <> None -> o_cache (fst (m o)) p <> None) ->
  fills (bind X Meth (store X Meth p v) (fun _ => m)) p.
Proof.
  intros H o _. cbn. apply H. cbn. destruct (prop_dec p p); [discriminate|contradiction].
Qed.

Lemma ok_getter s p compute r : Ok s compute r -> (raw s p = None <-> r = None) -> fills compute p ->
  Ok s (getter X Meth p compute) (raw s p).
Proof.
  intros H HR F o E C. unfold getter, bind, cached. cbn.
  destruct (o_cache o p) as [v|] eqn:K.
  - cbn. rewrite K. cbn. split; [exact E|]. split; [exact C|]. symmetry. rewrite <- E. now apply C.
  - destruct (H o E C) as (A1 & A2 & A3). specialize (F o). destruct (compute o) as [o' x]. cbn [fst snd] in *. subst x. destruct r as [[]|].
    + destruct (o_cache o' p) as [v|] eqn:K'; [|exfalso; now apply F]. cbn. split; [exact A1|]. split; [exact A2|]. symmetry. rewrite <- A1. now apply A2.
    + cbn. split; [exact A1|]. split; [exact A2|]. symmetry. now apply HR.
Qed.
Lemma ok_rounding s m r : Ok s m r -> Ok s (rounding X Meth rounded m) (option_map rounded r).
Proof.
  intros H. unfold rounding. destruct r as [v|]; [eapply ok_bind; [exact H|apply ok_ret]|apply ok_bind_none, H].
Qed.

Ltac stored := repeat first [apply fills_bind; intro | apply fills_store
   | apply fills_store_then; intros ? ?; cbn; repeat (destruct (prop_dec _ _); [discriminate|]); assumption].

Lemma ok_structure s : Ok s (get structure) (Some (sp_struct s)).
Proof.
  change (Some (sp_struct s)) with (raw s structure). apply (ok_getter s structure _ (Some tt)).
  - eapply ok_bind; [apply ok_sets|]. now apply ok_store.
  - cbn. split; discriminate.
  - stored.
Qed.
Lemma ok_mask s : Ok s (get vacuum_mask) (Some (sp_mask s)).
Proof.
  change (Some (sp_mask s)) with (raw s vacuum_mask). apply (ok_getter s vacuum_mask _ (Some tt)).
  - eapply ok_bind; [apply ok_sets|]. cbn zeta. destruct (is_false (s_tol s)) eqn:E.
    + apply ok_store. cbn [raw]. unfold sp_mask. now rewrite E.
    + eapply ok_bind; [apply ok_structure|]. apply ok_store. cbn [raw]. unfold sp_mask. now rewrite E.
  - cbn. split; discriminate.
  - apply fills_bind. intro a. cbn zeta. destruct (is_false (s_tol a)); stored.
Qed.
Lemma ok_num s : Ok s (get num_vacuum) (Some (sp_num s)).
Proof.
  change (Some (sp_num s)) with (raw s num_vacuum). apply (ok_getter s num_vacuum _ (Some tt)).
  - eapply ok_bind; [apply ok_sets|]. eapply ok_bind; [apply ok_mask|]. now apply ok_store.
  - cbn. split; discriminate.
  - stored.
Qed.
Notation run := (run_bader X Meth run_method relabelled).
Lemma ok_run s : Ok s run (option_map (fun _ => tt) (sp_run s)).
Proof.
  unfold run_bader. eapply ok_bind; [apply ok_sets|]. eapply ok_bind; [apply ok_mask|]. eapply ok_bind; [apply ok_num|].
  fold (sp_run s). destruct (sp_run s) as [r|] eqn:E; [|apply ok_fail]. cbn [option_map].
  repeat (eapply ok_bind; [apply ok_store; cbn [raw]; rewrite E; reflexivity|]). apply ok_store. cbn [raw]. now rewrite E.
Qed.
Lemma fills_run p : In p [basin_labels; basin_charges; basin_volumes; vacuum_charge; vacuum_volume; basin_maxima_vox; basin_maxima_frac; basin_maxima_ref_values] -> fills run p.
Proof.
  intros H. unfold run_bader. apply fills_bind. intro s. apply fills_bind. intro m. apply fills_bind. intro n.
  destruct (run_method _ _ _ _ _) as [r|]; [|intros o; discriminate].
  intros o _. cbn. cbn [In] in H. repeat (destruct H as [<-|H]; [cbn; discriminate|]). destruct H.
Qed.
Lemma any_none {A} (f : A -> X) o : any f o = None <-> option_map (fun _ => tt) o = None.
Proof. destruct o; cbn; split; discriminate || reflexivity. Qed.
Ltac from_run := match goal with |- Ok ?s _ (raw _ ?p) => apply (ok_getter s p _ _ (ok_run s)); [apply any_none | apply fills_run; cbn; auto 10] end.

Lemma ok_labels s : Ok s (get basin_labels) (raw s basin_labels). Proof. from_run. Qed.
Lemma ok_frac s : Ok s (get basin_maxima_frac) (raw s basin_maxima_frac). Proof. from_run. Qed.
Lemma ok_vox s : Ok s (get basin_maxima_vox) (raw s basin_maxima_vox). Proof. from_run. Qed.
Lemma ok_charges s : Ok s (get basin_charges) (option_map rounded (raw s basin_charges)). Proof. apply ok_rounding. from_run. Qed.
Lemma ok_volumes s : Ok s (get basin_volumes) (option_map rounded (raw s basin_volumes)). Proof. apply ok_rounding. from_run. Qed.
Lemma ok_vcharge s : Ok s (get vacuum_charge) (option_map rounded (raw s vacuum_charge)). Proof. apply ok_rounding. from_run. Qed.
Lemma ok_vvolume s : Ok s (get vacuum_volume) (option_map rounded (raw s vacuum_volume)). Proof. apply ok_rounding. from_run. Qed.
Lemma ok_refv s : Ok s (get basin_maxima_ref_values) (option_map rounded (raw s basin_maxima_ref_values)). Proof. apply ok_rounding. from_run. Qed.

(** One step of a computation that depends on the run. *)
Lemma ok_bind_run {A B C} s (m : M X Meth A) (f : A -> M X Meth B) (o : option C) (g : C -> A) r :
  Ok s m (option_map g o) -> (o = None -> r = None) -> (forall c, o = Some c -> Ok s (f (g c)) r) -> Ok s (bind X Meth m f) r.
Proof.
  intros H N S. destruct o as [c|]; [eapply ok_bind; [exact H|now apply S]|]. rewrite N by reflexivity. apply ok_bind_none, H.
Qed.
Ltac after_run l := eapply ok_bind_run; [apply l | intros ->; reflexivity |].

Lemma ok_charge_values s : Ok s (get basin_maxima_charge_values) (option_map rounded (raw s basin_maxima_charge_values)).
Proof.
  apply ok_rounding. apply (ok_getter s _ _ (option_map (fun _ => tt) (sp_run s))); [|apply any_none|stored].
  eapply ok_bind; [apply ok_sets|]. after_run ok_frac. intros c E. rewrite E. apply ok_store. cbn [raw]. rewrite E. reflexivity.
Qed.
Lemma option_map_map {A B C} (f : B -> C) (g : A -> B) o : option_map f (option_map g o) = option_map (fun a => f (g a)) o.
Proof. now destruct o. Qed.
Lemma ok_significant s : Ok s (get significant_basins) (raw s significant_basins).
Proof.
  apply (ok_getter s _ _ (option_map (fun _ => tt) (sp_run s))); [|apply any_none|stored].
  eapply ok_bind_run; [pose proof (ok_charges s) as K; cbn [raw] in K; unfold any in K; rewrite option_map_map in K; exact K|intros ->; reflexivity|].
  intros c E. eapply ok_bind; [apply ok_sets|]. rewrite E. apply ok_store. cbn [raw]. rewrite E. reflexivity.
Qed.
Lemma ok_bedges s : Ok s (get basin_edges) (raw s basin_edges).
Proof.
  apply (ok_getter s _ _ (option_map (fun _ => tt) (sp_run s))); [|apply any_none|stored].
  after_run ok_labels. intros c E. eapply ok_bind; [apply ok_sets|]. rewrite E. apply ok_store. cbn [raw]. rewrite E. reflexivity.
Qed.
Notation run_atoms := (run_atom_assignment X Meth run_method relabelled rounded assign).
Lemma ok_atoms s : Ok s run_atoms (option_map (fun _ => tt) (sp_assign s)).
Proof.
  unfold run_atom_assignment. eapply ok_bind_run; [apply ok_frac|unfold sp_assign; intros ->; reflexivity|]. intros r E.
  eapply ok_bind; [apply ok_structure|].
  eapply ok_bind; [pose proof (ok_frac s) as K; cbn [raw] in K; rewrite E in K; exact K|].
  eapply ok_bind; [pose proof (ok_labels s) as K; cbn [raw] in K; rewrite E in K; exact K|].
  eapply ok_bind; [pose proof (ok_charges s) as K; cbn [raw] in K; rewrite E in K; exact K|].
  eapply ok_bind; [pose proof (ok_volumes s) as K; cbn [raw] in K; rewrite E in K; exact K|].
  cbn zeta. unfold sp_assign. rewrite E. cbn [option_map].
  repeat (eapply ok_bind; [apply ok_store; cbn [raw]; unfold sp_assign; rewrite E; reflexivity|]). apply ok_store. cbn [raw]. unfold sp_assign. now rewrite E.
Qed.
Lemma fills_atoms p : In p [basin_atoms; basin_atom_dists; atom_labels; atom_charges; atom_volumes] -> fills run_atoms p.
Proof.
  intros H. unfold run_atom_assignment. do 6 (apply fills_bind; intro). cbn zeta.
  intros o _. cbn. cbn [In] in H. repeat (destruct H as [<-|H]; [cbn; discriminate|]). destruct H.
Qed.
Ltac from_atoms := match goal with |- Ok ?s _ (raw _ ?p) => apply (ok_getter s p _ _ (ok_atoms s)); [apply any_none | apply fills_atoms; cbn; auto 10] end.
Lemma ok_batoms s : Ok s (get basin_atoms) (raw s basin_atoms). Proof. from_atoms. Qed.
Lemma ok_bdists s : Ok s (get basin_atom_dists) (option_map rounded (raw s basin_atom_dists)). Proof. apply ok_rounding. from_atoms. Qed.
Lemma ok_alabels s : Ok s (get atom_labels) (raw s atom_labels). Proof. from_atoms. Qed.
Lemma ok_acharges s : Ok s (get atom_charges) (option_map rounded (raw s atom_charges)). Proof. apply ok_rounding. from_atoms. Qed.
Lemma ok_avolumes s : Ok s (get atom_volumes) (option_map rounded (raw s atom_volumes)). Proof. apply ok_rounding. from_atoms. Qed.
Lemma ok_aedges s : Ok s (get atom_edges) (raw s atom_edges).
Proof.
  apply (ok_getter s _ _ (option_map (fun _ => tt) (sp_assign s))); [|apply any_none|stored].
  after_run ok_alabels. intros c E. eapply ok_bind; [apply ok_sets|]. rewrite E. apply ok_store. cbn [raw]. rewrite E. reflexivity.
Qed.
Notation bsurf := (get_basin_surface_distances X Meth run_method relabelled edges_of surface).
Notation asurf := (get_atom_surface_distances X Meth run_method relabelled rounded edges_of assign surface).
Lemma ok_bsurf s : Ok s bsurf (option_map (fun _ => tt) (sp_bsurf s)).
Proof.
  unfold get_basin_surface_distances, surface_distances. eapply ok_bind_run; [apply ok_labels|unfold sp_bsurf; intros ->; reflexivity|]. intros r E.
  eapply ok_bind; [pose proof (ok_frac s) as K; cbn [raw] in K; rewrite E in K; exact K|].
  eapply ok_bind; [pose proof (ok_bedges s) as K; cbn [raw] in K; rewrite E in K; exact K|].
  eapply ok_bind; [apply ok_sets|]. eapply ok_bind; [apply ok_structure|].
  destruct (surface _ _ _ _ _) as [mn av] eqn:SU.
  assert (B : sp_bsurf s = Some (mn, av)) by (unfold sp_bsurf; rewrite E; cbn [option_map]; now rewrite SU). rewrite B. cbn [option_map].
  eapply ok_bind; [apply ok_store; cbn [raw]; rewrite B; reflexivity|]. apply ok_store. cbn [raw]. now rewrite B.
Qed.
Lemma ok_asurf s : Ok s asurf (option_map (fun _ => tt) (sp_asurf s)).
Proof.
  unfold get_atom_surface_distances, surface_distances. eapply ok_bind_run; [apply ok_alabels|unfold sp_asurf; intros ->; reflexivity|]. intros r E.
  eapply ok_bind; [apply ok_structure|].
  eapply ok_bind; [pose proof (ok_aedges s) as K; cbn [raw] in K; rewrite E in K; exact K|].
  eapply ok_bind; [apply ok_sets|]. eapply ok_bind; [apply ok_structure|].
  destruct (surface _ _ _ _ _) as [mn av] eqn:SU.
  assert (B : sp_asurf s = Some (mn, av)) by (unfold sp_asurf; rewrite E; cbn [option_map]; now rewrite SU). rewrite B. cbn [option_map].
  eapply ok_bind; [apply ok_store; cbn [raw]; rewrite B; reflexivity|]. apply ok_store. cbn [raw]. now rewrite B.
Qed.
Lemma fills_surf l c e p q st pr : In pr [p; q] -> fills (surface_distances X Meth st surface l c e p q) pr.
Proof.
  intros H. unfold surface_distances. do 5 (apply fills_bind; intro). destruct (surface _ _ _ _ _) as [mn av].
  intros o _. cbn. destruct H as [<-|[<-|[]]]; destruct (prop_dec _ _); try discriminate; destruct (prop_dec _ _); try discriminate; contradiction.
Qed.

Theorem get_ok s p : p <> atom_avg_surface_distances -> Ok s (get p) (shown s p).
Proof.
  intros NE. unfold shown. destruct p; cbn [rounds]; try contradiction;
    match goal with
    | |- Ok _ _ (option_map id ?x) => replace (option_map id x) with x by (destruct x; reflexivity)
    | _ => idtac
    end; try exact (ok_mask s); try exact (ok_num s); try exact (ok_structure s); auto using ok_labels, ok_frac, ok_charge_values, ok_refv, ok_vox, ok_charges, ok_volumes, ok_vcharge, ok_vvolume, ok_significant, ok_mask, ok_num,
      ok_bedges, ok_aedges, ok_structure, ok_batoms, ok_bdists, ok_alabels, ok_acharges, ok_avolumes.
  - apply ok_rounding. apply (ok_getter s _ _ _ (ok_bsurf s)); [apply any_none|apply fills_surf; cbn; auto].
  - apply ok_rounding. apply (ok_getter s _ _ _ (ok_bsurf s)); [apply any_none|apply fills_surf; cbn; auto].
  - apply ok_rounding. apply (ok_getter s _ _ _ (ok_asurf s)); [apply any_none|apply fills_surf; cbn; auto].
Qed.

(** The getter of the atoms' average distances: a value only if it is cached. *)
Lemma get_avg o : coherent o ->
  let r := get atom_avg_surface_distances o in
  o_set (fst r) = o_set o /\ coherent (fst r) /\
  (snd r = option_map rounded (o_cache o atom_avg_surface_distances)).
Proof.
  intros C. cbn zeta. change (get atom_avg_surface_distances) with (rounding X Meth rounded (getter X Meth atom_avg_surface_distances bsurf)).
  unfold rounding, getter, bind, cached. cbn.
  destruct (o_cache o atom_avg_surface_distances) as [v|] eqn:K.
  - cbn. rewrite K. cbn. auto.
  - destruct (ok_bsurf (o_set o) o eq_refl C) as (A1 & A2 & A3).
    assert (N : o_cache (fst (bsurf o)) atom_avg_surface_distances = None).
    { unfold get_basin_surface_distances, surface_distances.
      assert (KB : forall A B (m : M X Meth A) (f : A -> M X Meth B) q, (forall o, o_cache o q = None -> o_cache (fst (m o)) q = None) ->
        (forall a o, o_cache o q = None -> o_cache (fst (f a o)) q = None) -> forall o, o_cache o q = None -> o_cache (fst (bind X Meth m f o)) q = None).
      { intros A B m f q H1 H2 o1 HN. unfold bind. specialize (H1 o1 HN). destruct (m o1) as [o2 [a|]]; cbn in *; auto. }
      assert (KS : forall q v p, q <> p -> forall o, o_cache o p = None -> o_cache (fst (store X Meth q v o)) p = None).
      { intros q v p NE o1 HN. cbn. destruct (prop_dec p q); congruence. }
      assert (KG : forall q c p, (forall o, o_cache o p = None -> o_cache (fst (c o)) p = None) -> forall o, o_cache o p = None -> o_cache (fst (getter X Meth q c o)) p = None).
      { intros q c p H o1. unfold getter. apply KB; [auto|]. intros [w|].
        - apply KB; [auto|]. intros _. apply KB; [auto|]. intros [w'|]; auto.
        - apply KB; [exact H|]. intros _. apply KB; [auto|]. intros [w'|]; auto. }
      set (q := atom_avg_surface_distances) in *.
      assert (K1 : forall o, o_cache o q = None -> o_cache (fst (get structure o)) q = None).
      { apply KG. intros o1. apply KB; [auto|]. intros a. apply KS. discriminate. }
      assert (K2 : forall o, o_cache o q = None -> o_cache (fst (get vacuum_mask o)) q = None).
      { apply KG. intros o1. apply KB; [auto|]. intros a. cbn zeta. destruct (is_false _); [apply KS; discriminate|]. intros o2. apply KB; [exact K1|]. intros b. apply KS. discriminate. }
      assert (K3 : forall o, o_cache o q = None -> o_cache (fst (get num_vacuum o)) q = None).
      { apply KG. intros o1. apply KB; [auto|]. intros a o2. apply KB; [exact K2|]. intros b. apply KS. discriminate. }
      assert (K4 : forall o, o_cache o q = None -> o_cache (fst (run o)) q = None).
      { intros o1. unfold run_bader. apply KB; [auto|]. intros a o2. apply KB; [exact K2|]. intros b o3. apply KB; [exact K3|]. intros c o4.
        destruct (run_method _ _ _ _ _); [|auto]. revert o4. do 7 (intro; apply KB; [apply KS; discriminate|intros []]). apply KS. discriminate. }
      assert (K5 : forall o, o_cache o q = None -> o_cache (fst (get basin_labels o)) q = None) by (apply KG; exact K4).
      assert (K6 : forall o, o_cache o q = None -> o_cache (fst (get basin_maxima_frac o)) q = None) by (apply KG; exact K4).
      assert (K7 : forall o, o_cache o q = None -> o_cache (fst (get basin_edges o)) q = None).
      { apply KG. intros o1. apply KB; [exact K5|]. intros a o2. apply KB; [auto|]. intros b. apply KS. discriminate. }
      revert o K C A1 A2 A3. intros o K _ _ _ _. revert o K.
      intro. apply KB; [exact K5|]. intros a o1. apply KB; [exact K6|]. intros b o2. apply KB; [exact K7|]. intros c o3. apply KB; [auto|]. intros d o4.
      apply KB; [exact K1|]. intros e o5. destruct (surface _ _ _ _ _). apply KB; [apply KS; discriminate|]. intros _. apply KS. discriminate. }
    destruct (bsurf o) as [o' [u|]]; cbn [fst snd] in *; [|auto]. rewrite N. cbn. auto.
Qed.

(** Setters *)
Definition norm (t : tolerance) : tolerance := match t with TTrue => TNum (1 # 1000) | t => t end.
Lemma mem_all p : mem p all_props = true.
Proof. now destruct p. Qed.
Lemma reset_all_cache o p : o_cache (reset X Meth None [] o) p = None.
Proof. unfold reset. cbn [o_cache]. replace (filter _ all_props) with all_props by reflexivity. now rewrite mem_all. Qed.
Lemma reset_all_coherent o : coherent (reset X Meth None [] o).
Proof. intros p v. rewrite reset_all_cache. discriminate. Qed.
Lemma fresh_coherent s : coherent (fresh X Meth s).
Proof. apply reset_all_coherent. Qed.
Lemma fresh_set s : s_tol s <> TTrue -> o_set (fresh X Meth s) = s.
Proof. destruct s as [c r m t u b]. cbn. intros H. destruct t; try reflexivity. contradiction. Qed.

Lemma exec_coherent o c : coherent o -> coherent (exec o c).
Proof.
  intros C. destruct c; cbn [BaderModel.exec]; try apply reset_all_coherent.
  - destruct (prop_dec p atom_avg_surface_distances) as [->|NE]; [now apply get_avg|]. now apply (get_ok (o_set o) p NE o eq_refl C).
  - now apply (ok_run (o_set o) o eq_refl C).
  - now apply (ok_atoms (o_set o) o eq_refl C).
  - destruct m as [m|]; [|exact C]. intros p v. unfold set_method, reset. cbn [o_cache o_set with_set].
    destruct p; cbn; try discriminate; intros H; specialize (C _ _ H); cbn in C |- *; exact C.
  - intros p v. unfold set_basin_tol, reset. cbn [o_cache o_set with_set].
    destruct p; cbn; try discriminate; intros H; specialize (C _ _ H); exact C.
Qed.
Lemma exec_set_get o p : coherent o -> o_set (fst (get p o)) = o_set o.
Proof.
  intros C. destruct (prop_dec p atom_avg_surface_distances) as [->|NE]; [now apply get_avg|]. now apply (get_ok (o_set o) p NE o eq_refl C).
Qed.

Definition history (o : obj) (h : list (call X Meth)) : obj := fold_left exec h o.
Lemma history_coherent h o : coherent o -> coherent (history o h).
Proof. revert o. induction h as [|c h IH]; intros o C; [exact C|]. cbn. apply IH. now apply exec_coherent. Qed.

Lemma history_tol h : ~ In (SetTol X Meth TTrue) h -> forall o, coherent o -> s_tol (o_set o) <> TTrue -> s_tol (o_set (history o h)) <> TTrue.
Proof.
  induction h as [|c h IH]; intros N o C T; [exact T|]. cbn. apply IH; [intros K; apply N; now right|now apply exec_coherent|].
  destruct c; cbn [BaderModel.exec]; try exact T.
  - now rewrite exec_set_get.
  - pose proof (ok_run (o_set o) o eq_refl C) as (E & _). now rewrite E.
  - pose proof (ok_atoms (o_set o) o eq_refl C) as (E & _). now rewrite E.
  - destruct m; exact T.
  - cbn. intros ->. apply N. now left.
Qed.

Theorem never_stale : forall s0 h p, ~ In (SetTol X Meth TTrue) h -> p <> atom_avg_surface_distances ->
  let o := history (fresh X Meth s0) h in
  snd (get p o) = snd (get p (fresh X Meth (o_set o))) /\ snd (get p o) = shown (o_set o) p.
Proof.
  intros s0 h p NT NP o. assert (C : coherent o) by apply history_coherent, fresh_coherent.
  assert (T : s_tol (o_set o) <> TTrue).
  { apply history_tol; [exact NT|apply fresh_coherent|]. cbn. destruct (s_tol s0); discriminate. }
  destruct (get_ok (o_set o) p NP o eq_refl C) as (_ & _ & ->).
  destruct (get_ok (o_set o) p NP (fresh X Meth (o_set o)) (fresh_set _ T) (fresh_coherent _)) as (_ & _ & ->). auto.
Qed.

(** The average distances of the atoms, when returned at all, are the right ones; on a
    fresh object the getter always raises. *)
Theorem avg_when_returned : forall s0 h v,
  let o := history (fresh X Meth s0) h in
  snd (get atom_avg_surface_distances o) = Some v -> Some v = shown (o_set o) atom_avg_surface_distances.
Proof.
  intros s0 h v o E. assert (C : coherent o) by apply history_coherent, fresh_coherent.
  destruct (get_avg o C) as (_ & _ & K). rewrite E in K. unfold shown. cbn [rounds].
  destruct (o_cache o atom_avg_surface_distances) as [w|] eqn:W; [|discriminate]. rewrite (C _ _ W). exact K.
Qed.
Theorem avg_fresh_raises : forall s, snd (get atom_avg_surface_distances (fresh X Meth s)) = None.
Proof.
  intros s. destruct (get_avg _ (fresh_coherent s)) as (_ & _ & K). rewrite K. reflexivity.
Qed.
End Obj.
