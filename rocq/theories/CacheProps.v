(** Properties of the stored neighbours and radii. *)
From Coq Require Import QArith Lia.
From Verif Require Import Base RootsModel TextModel ReportModel ReportProofs ReportProps CoordProps CacheModel.
Local Open Scope Z_scope.

Section Reads.
Variable argsort : list Q -> list nat.
Variable r10 : Q -> Q.
Variable l : labeler.
(** The results that count with electrides: those of the atoms if there are none. *)
Definition with_electrides : run := if Nat.eqb (electrides l) 0 then base l else elec l.
(** The smallest radii of atoms, and of atoms and electrides. *)
Definition radii_of (x : list (Q * bool)) : Prop :=
  get_atom_elf_radii argsort (atoms l) (r_radii (base l)) (r_types (base l)) (map fst (r_data (base l))) = Done x.
Definition radii_e_of (x : list (Q * bool)) : Prop :=
  get_atom_elf_radii argsort (atoms l + electrides l) (r_radii with_electrides) (r_types with_electrides) (map fst (r_data with_electrides)) = Done x.
Definition expected (x y : list (Q * bool)) (g : getter) : answer :=
  match g with
  | Data => Pairs (Some (r_data (base l)))
  | Near => Numbers (Some (r_radii (base l)))
  | NearTypes | NearTypesE => Kinds (Some (r_types (base l)))
  | Radii => Numbers (Some (map r10 (map fst x)))
  | RadiiTypes => Kinds (Some (map snd x))
  | DataE => Pairs (Some (r_data with_electrides))
  | NearE => Numbers (Some (r_radii with_electrides))
  | RadiiE => Numbers (Some (map r10 (map fst y)))
  | RadiiTypesE => Kinds (Some (map snd y))
  end.
(** Getters whose answers do not depend on the stored pairs. *)
Definition own (g : getter) : bool := match g with Near | NearTypes | NearE | NearTypesE | Radii | RadiiTypes => true | _ => false end.
Variables x y : list (Q * bool).
Hypothesis Hx : radii_of x.
Hypothesis Hmarks : marks l = true.
Hypothesis Hfail : fail l = Never.

Notation fresh d := {| graph := false; nn := None; nn_t := None; nn_d := d; nn_e := None; nn_te := None; nn_de := None; ra := None; ra_t := None; ra_e := None; ra_te := None |}.
Definition made (d : list (nat * nat)) (e : option (list (nat * nat))) (z : option (list (Q * bool))) : cache := 
  {| graph := true; nn := Some (r_radii (base l)); nn_t := Some (r_types (base l)); nn_d := Some d;
      nn_e := match e with Some _ => Some (r_radii with_electrides) | None => None end; nn_te := match e with Some _ => Some (r_types with_electrides) | None => None end; nn_de := e;
      ra := Some (map fst x); ra_t := Some (map snd x); ra_e := option_map (map fst) z; ra_te := option_map (map snd) z |}.
(** [new]: the labelling may still have to be done; [strong]: nothing but the labeler itself writes its attributes. *)
Inductive shape (new strong : bool) : cache -> Prop :=
| Fresh d : new = true -> (strong = true -> d = None \/ d = Some (r_data (base l))) -> shape new strong (fresh d)
| Made d e z : (strong = true -> d = r_data (base l)) -> (strong = true -> e = None \/ e = Some (r_data with_electrides)) -> (strong = true -> z = None \/ z = Some y) ->
    shape new strong (made d e z).
Lemma shape_new new strong c : shape false strong c -> shape new strong c.
Proof. intros [d H|d e z H1 H2 H3]; [discriminate|now apply Made]. Qed.
Hypothesis Hy : radii_e_of y.
Lemma graph_fresh d : bifurcation_graph argsort l (fresh d) =
  (Some tt, made (r_data (base l)) None None).
Proof.
  unfold bifurcation_graph, get_bifurcation_graph. cbn. rewrite Hfail, Hmarks. cbn. unfold store_ra, smallest. cbn. unfold radii_of in Hx. rewrite Hx. cbn. reflexivity.
Qed.
Lemma nn_fresh d : atom_nn_elf_radii argsort l (fresh d) =
  (Some (Some (r_radii (base l))), made (r_data (base l)) None None).
Proof. unfold atom_nn_elf_radii. cbn. unfold bind at 1. rewrite graph_fresh. reflexivity. Qed.
Lemma nn_e_made d z : atom_nn_elf_radii_e argsort l (made d None z) =
  (Some (Some (r_radii with_electrides)), made d (Some (if Nat.eqb (electrides l) 0 then d else r_data (elec l))) z).
Proof. unfold atom_nn_elf_radii_e, made, with_electrides. cbn. destruct (Nat.eqb (electrides l) 0); reflexivity. Qed.
Lemma nn_e_fresh d : atom_nn_elf_radii_e argsort l (fresh d) =
  (Some (Some (r_radii with_electrides)), made (r_data (base l)) (Some (r_data with_electrides)) None).
Proof.
  unfold atom_nn_elf_radii_e. cbn. unfold bind at 1. unfold bind at 1. rewrite graph_fresh. unfold with_electrides, made. cbn. unfold with_electrides. destruct (Nat.eqb (electrides l) 0) eqn:E; reflexivity.
Qed.
Lemma smallest_base c : smallest argsort (atoms l) (Some (r_radii (base l))) (Some (r_types (base l))) (Some (r_data (base l))) c = (Some x, c).
Proof. unfold smallest. unfold radii_of in Hx. rewrite Hx. reflexivity. Qed.
Lemma bind_ok {A B} (m : M A) (k : A -> M B) c a c' : m c = (Some a, c') -> bind m k c = k a c'.
Proof. intros H. unfold bind. now rewrite H. Qed.
Lemma bind_same {A B} (m : M A) (k : A -> M B) c c' : m c = m c' -> bind m k c = bind m k c'.
Proof. intros H. unfold bind. now rewrite H. Qed.
Lemma bind_read {A B} (f : cache -> A) (k : A -> M B) c : bind (read f) k c = k (f c) c.
Proof. reflexivity. Qed.
Lemma nn_e_same d : atom_nn_elf_radii_e argsort l (fresh d) = atom_nn_elf_radii_e argsort l (made (r_data (base l)) None None).
Proof. rewrite nn_e_fresh, nn_e_made. unfold with_electrides. now destruct (Nat.eqb (electrides l) 0). Qed.
Lemma radii_fresh d : atom_elf_radii argsort r10 l (fresh d) = (Some (Some (map r10 (map fst x))), made (r_data (base l)) None None).
Proof.
  unfold atom_elf_radii. rewrite (bind_ok (read ra) _ (fresh d) None (fresh d)) by reflexivity. cbn beta iota.
  rewrite (bind_ok _ _ (fresh d) tt (made (r_data (base l)) None None)); [reflexivity|].
  rewrite (bind_ok _ _ _ _ _ (nn_fresh d)). cbn. unfold store_ra. now rewrite (bind_ok _ _ _ _ _ (smallest_base _)).
Qed.
Lemma radii_e_same d : atom_elf_radii_e argsort r10 l (fresh d) = atom_elf_radii_e argsort r10 l (made (r_data (base l)) None None).
Proof.
  unfold atom_elf_radii_e. rewrite !bind_read. cbn [ra_e made option_map]. apply bind_same.
  rewrite (bind_ok _ _ _ _ _ (graph_fresh d)). symmetry. erewrite bind_ok by reflexivity. reflexivity.
Qed.
Lemma fresh_made g d : g <> Data -> get argsort r10 l g (fresh d) = get argsort r10 l g (made (r_data (base l)) None None).
Proof.
  intros N. destruct g; [congruence| | | | | | | | | ]; cbn [get]; unfold answered.
  - rewrite (bind_ok _ _ _ _ _ (nn_fresh d)). reflexivity.
  - rewrite (bind_ok _ _ (fresh d) (Some (r_types (base l))) (made (r_data (base l)) None None)); [reflexivity|].
    unfold atom_nn_elf_radii_types. rewrite (bind_ok (read nn_t) _ (fresh d) None (fresh d)) by reflexivity. cbn beta iota.
    erewrite bind_ok; [|rewrite (bind_ok _ _ _ _ _ (nn_fresh d)); reflexivity]. reflexivity.
  - rewrite (bind_ok _ _ _ _ _ (radii_fresh d)). reflexivity.
  - rewrite (bind_ok _ _ (fresh d) (Some (map snd x)) (made (r_data (base l)) None None)); [reflexivity|].
    unfold atom_elf_radii_types. rewrite (bind_ok (read ra_t) _ (fresh d) None (fresh d)) by reflexivity. cbn beta iota.
    erewrite bind_ok; [|rewrite (bind_ok (read ra_t) _ (fresh d) None (fresh d)) by reflexivity; erewrite bind_ok by reflexivity; change (with_ra None None (fresh d)) with (fresh d); rewrite (bind_ok _ _ _ _ _ (radii_fresh d)); reflexivity]. reflexivity.
  - apply bind_same. unfold nearest_neighbor_data_e. rewrite !bind_read. cbn [nn_de made]. do 2 apply bind_same. apply nn_e_same.
  - apply bind_same. apply nn_e_same.
  - apply bind_same. unfold atom_nn_elf_radii_types_e. rewrite !bind_read. cbn [nn_te made]. do 2 apply bind_same. apply nn_e_same.
  - apply bind_same. apply radii_e_same.
  - apply bind_same. unfold atom_elf_radii_types_e. rewrite !bind_read. cbn [ra_te made option_map]. do 2 apply bind_same. apply radii_e_same.
Qed.
Lemma get_made strong d e z g : (strong = true -> d = r_data (base l)) -> (strong = true -> e = None \/ e = Some (r_data with_electrides)) -> (strong = true -> z = None \/ z = Some y) ->
  let '(a, c) := get argsort r10 l g (made d e z) in shape false strong c /\ (strong = true \/ own g = true -> a = Some (expected x y g)).
Proof.
  intros Hd He Hz.
  assert (SELF : shape false strong (made d e z)) by (constructor; assumption).
  set (e' := if Nat.eqb (electrides l) 0 then d else r_data (elec l)).
  assert (E' : strong = true -> e' = r_data with_electrides) by (unfold e'; intros S; rewrite (Hd S); unfold with_electrides; now destruct (Nat.eqb _ _)).
  assert (NXT : shape false strong (made d (Some e') z)) by (constructor; auto; intros S; right; now rewrite (E' S)).
  assert (NE : atom_nn_elf_radii_e argsort l (made d e z) = (Some (Some (r_radii with_electrides)), made d (Some (match e with None => e' | Some e => e end)) z)).
  { destruct e as [e|]; [reflexivity|]. apply nn_e_made. }
  assert (DE : nearest_neighbor_data_e argsort l (made d e z) = (Some (Some (match e with None => e' | Some e => e end)), made d (Some (match e with None => e' | Some e => e end)) z)).
  { unfold nearest_neighbor_data_e. rewrite bind_read. cbn [made nn_de]. destruct e as [e|]; [reflexivity|]. erewrite bind_ok; [|rewrite (bind_ok _ _ _ _ _ NE); reflexivity]. reflexivity. }
  assert (E2 : strong = true -> match e with None => e' | Some e => e end = r_data with_electrides).
  { intros S. destruct e as [e|]; [|auto]. destruct (He S) as [K|K]; congruence. }
  set (e2 := match e with None => e' | Some e => e end) in *.
  assert (NX2 : shape false strong (made d (Some e2) z)) by (constructor; auto; intros S; right; now rewrite (E2 S)).
  assert (RE : let '(a, c) := atom_elf_radii_e argsort r10 l (made d e z) in shape false strong c /\ (strong = true -> a = Some (Some (map r10 (map fst y))) /\ ra_te c = Some (map snd y))).
  { unfold atom_elf_radii_e. rewrite bind_read. cbn [ra_e made]. destruct z as [z|].
    - cbn. split; [exact SELF|]. intros S. destruct (Hz S) as [K|K]; [discriminate|]. injection K as ->. auto.
    - cbn [option_map].
      assert (Q : (let! _ := bifurcation_graph argsort l in let! r := atom_nn_elf_radii_e argsort l in let! t := read nn_te in let! d := nearest_neighbor_data_e argsort l in
                   let! x := smallest argsort (atoms l + electrides l) r t d in modify (with_ra_e (Some (map fst x)) (Some (map snd x)))) (made d e None) =
        match get_atom_elf_radii argsort (atoms l + electrides l) (r_radii with_electrides) (r_types with_electrides) (map fst e2) with
        | Done z => (Some tt, made d (Some e2) (Some z)) | _ => (None, made d (Some e2) None) end).
      { erewrite bind_ok by reflexivity. rewrite (bind_ok _ _ _ _ _ NE). rewrite bind_read.
        erewrite bind_ok by reflexivity. unfold bind, smallest. cbn. now destruct (get_atom_elf_radii _ _ _ _ _). }
      unfold bind at 1. fold (made d e None). rewrite Q.
      destruct (get_atom_elf_radii _ _ _ _ _) as [z| |] eqn:Z; [|(split; [exact NX2|])..].
      + cbn. assert (ZY : strong = true -> z = y) by (intros S; rewrite (E2 S) in Z; unfold radii_e_of in Hy; rewrite Hy in Z; congruence).
        split; [|intros S; rewrite (ZY S); auto]. apply (Made false strong d (Some e2) (Some z)); auto; intros S; right; [now rewrite (E2 S)|now rewrite (ZY S)].
      + intros S. rewrite (E2 S) in Z. unfold radii_e_of in Hy. rewrite Hy in Z. discriminate.
      + intros S. rewrite (E2 S) in Z. unfold radii_e_of in Hy. rewrite Hy in Z. discriminate. }
  destruct g; cbn [get]; unfold answered.
  - cbn. split; [exact SELF|]. intros [S|S]; [|discriminate]. now rewrite (Hd S).
  - cbn. auto.
  - cbn. auto.
  - cbn. auto.
  - cbn. auto.
  - rewrite (bind_ok _ _ _ _ _ DE). cbn. split; [exact NX2|]. intros [S|S]; [|discriminate]. now rewrite (E2 S).
  - rewrite (bind_ok _ _ _ _ _ NE). cbn. auto.
  - erewrite bind_ok; [split; [exact NX2|reflexivity]|].
    unfold atom_nn_elf_radii_types_e. rewrite bind_read. cbn [nn_te made]. destruct e as [e|]; [reflexivity|]. erewrite bind_ok; [|rewrite (bind_ok _ _ _ _ _ NE); reflexivity]. reflexivity.
  - unfold bind. destruct (atom_elf_radii_e argsort r10 l (made d e z)) as [[a|] c]; cbn; split; try apply RE; (intros [S|S]; [|discriminate]); destruct RE as [_ RE]; destruct (RE S) as [R1 _]; congruence.
  - unfold atom_elf_radii_types_e. destruct z as [z|].
    + cbn. split; [exact SELF|]. intros [S|S]; [|discriminate]. destruct (Hz S) as [K|K]; [discriminate|]. injection K as ->. reflexivity.
    + unfold bind, read, ret. cbn [ra_te made option_map]. fold (made d e None). destruct (atom_elf_radii_e argsort r10 l (made d e None)) as [[a|] c]; cbn; split; try apply RE; (intros [S|S]; [|discriminate]); destruct RE as [_ RE]; destruct (RE S) as [R1 R2]; congruence.
Qed.
Lemma get_step new strong g c : shape new strong c ->
  let '(a, c) := get argsort r10 l g c in shape (match g with Data => new | _ => false end) strong c /\ (strong = true \/ own g = true -> a = Some (expected x y g)).
Proof.
  intros [d N H|d e z H1 H2 H3].
  2:{ pose proof (get_made strong d e z g H1 H2 H3) as P. destruct (get argsort r10 l g (made d e z)) as [a c']. destruct P as [P1 P2]. split; [destruct g; first [exact P1|apply shape_new; exact P1]|exact P2]. }
  assert (MAIN : forall g, let '(a, c) := get argsort r10 l g (made (r_data (base l)) None None) in shape false strong c /\ (strong = true \/ own g = true -> a = Some (expected x y g))).
  { intros g'. apply get_made; auto. }
  destruct g; try (rewrite fresh_made by discriminate; apply MAIN).
  cbn [get]. unfold answered, nearest_neighbor_data, bind, read, ret. cbn [nn_d]. destruct d as [d|].
  - split; [now apply Fresh|]. intros [S|S]; [|discriminate]. destruct (H S) as [K|K]; [discriminate|]. now rewrite K.
  - rewrite graph_fresh. cbn. split; [|auto]. apply Made; auto.
Qed.
End Reads.

(** ** One labeler *)
Fixpoint reads (argsort : list Q -> list nat) (r10 : Q -> Q) (l : labeler) (h : list getter) (c : cache) : list (option answer) * cache :=
  match h with
  | [] => ([], c)
  | g :: h => let '(a, c) := get argsort r10 l g c in let '(b, c) := reads argsort r10 l h c in (a :: b, c)
  end.
(** A labelling that ends, with at least one feature, and radii for all atoms and electrides. *)
Definition labelled argsort l x y : Prop := marks l = true /\ fail l = Never /\ radii_of argsort l x /\ radii_e_of argsort l y.

Theorem C253_answers : forall argsort r10 l x y, labelled argsort l x y ->
  forall h, fst (reads argsort r10 l h empty) = map (fun g => Some (expected r10 l x y g)) h.
Proof.
  intros argsort r10 l x y (Hm & Hf & Hx & Hy) h.
  enough (K : forall c, shape l x y true true c -> fst (reads argsort r10 l h c) = map (fun g => Some (expected r10 l x y g)) h) by (apply K; apply Fresh; auto).
  induction h as [|g h IH]; intros c Hc; [reflexivity|]. cbn [reads map].
  pose proof (get_step argsort r10 l x y Hx Hm Hf Hy true true g c Hc) as S. destruct (get argsort r10 l g c) as [a c']. destruct S as [S1 S2].
  specialize (IH c' ltac:(destruct g; first [exact S1|apply shape_new; exact S1])). destruct (reads argsort r10 l h c') as [b c'']. cbn [fst] in *. rewrite IH, S2; auto.
Qed.
Print Assumptions C253_answers.
Theorem C253_order : forall argsort r10 l x y, labelled argsort l x y ->
  forall h h' g, fst (get argsort r10 l g (snd (reads argsort r10 l h empty))) = fst (get argsort r10 l g (snd (reads argsort r10 l h' empty))) /\
    fst (get argsort r10 l g (snd (reads argsort r10 l h empty))) <> None.
Proof.
  intros argsort r10 l x y L.
  assert (K : forall h g, fst (get argsort r10 l g (snd (reads argsort r10 l h empty))) = Some (expected r10 l x y g)).
  { destruct L as (Hm & Hf & Hx & Hy). intros h g.
    assert (S : shape l x y true true (snd (reads argsort r10 l h empty))).
    { enough (K : forall c, shape l x y true true c -> shape l x y true true (snd (reads argsort r10 l h c))) by (apply K; apply Fresh; auto).
      induction h as [|k h IH]; intros c Hc; [exact Hc|]. cbn [reads].
      pose proof (get_step argsort r10 l x y Hx Hm Hf Hy true true k c Hc) as S. destruct (get argsort r10 l k c) as [a c']. destruct S as [S1 S2].
      specialize (IH c' ltac:(destruct k; first [exact S1|apply shape_new; exact S1])). destruct (reads argsort r10 l h c') as [b c'']. exact IH. }
    pose proof (get_step argsort r10 l x y Hx Hm Hf Hy true true g _ S) as P. destruct (get argsort r10 l g _) as [a c']. destruct P as [_ P]. cbn. apply P. auto. }
  intros h h' g. rewrite !K. split; congruence.
Qed.
Print Assumptions C253_order.

(** Two atoms and one electride. *)
Definition some_base : run := {| r_radii := [9 # 10; 11 # 10]%Q; r_types := [true; true]; r_data := [(0, 1); (1, 0)]%nat |}.
Definition some_elec : run := {| r_radii := [9 # 10; 7 # 10; 11 # 10; 13 # 10]%Q; r_types := [true; false; true; false]; r_data := [(0, 1); (0, 2); (1, 0); (2, 0)]%nat |}.
Definition some_labeler (f : failure) : labeler := {| base := some_base; elec := some_elec; atoms := 2; electrides := 1; marks := true; fail := f |}.
Definition same (q : Q) : Q := q.
Example C253_ex : labelled sort_idx (some_labeler Never) [(9 # 10, true); (11 # 10, true)]%Q [(7 # 10, false); (11 # 10, true); (13 # 10, false)]%Q /\
  fst (reads sort_idx same (some_labeler Never) [RadiiTypesE; Data; Radii; DataE] empty) =
    [Some (Kinds (Some [false; true; false])); Some (Pairs (Some [(0, 1); (1, 0)]%nat)); Some (Numbers (Some [9 # 10; 11 # 10]%Q));
     Some (Pairs (Some [(0, 1); (0, 2); (1, 0); (2, 0)]%nat))].
Proof. split; [repeat split; vm_compute; reflexivity|vm_compute; reflexivity]. Qed.

(** ** The types with electrides *)
Theorem C254_types_refuted : exists argsort r10 l x y r t, labelled argsort l x y /\ List.length t <> List.length r /\
  forall h, fst (get argsort r10 l NearE (snd (reads argsort r10 l h empty))) = Some (Numbers (Some r)) /\
    fst (get argsort r10 l NearTypesE (snd (reads argsort r10 l h empty))) = Some (Kinds (Some t)).
Proof.
  pose (x := [(9 # 10, true); (11 # 10, true)]%Q). pose (y := [(7 # 10, false); (11 # 10, true); (13 # 10, false)]%Q).
  assert (L : labelled sort_idx (some_labeler Never) x y) by (repeat split; vm_compute; reflexivity).
  exists sort_idx, same, (some_labeler Never), x, y, (r_radii some_elec), [true; true]. split; [exact L|]. split; [discriminate|]. intros h.
  destruct (C253_order sort_idx same (some_labeler Never) x y L h [] NearE) as [-> _].
  destruct (C253_order sort_idx same (some_labeler Never) x y L h [] NearTypesE) as [-> _]. split; vm_compute; reflexivity.
Qed.
Print Assumptions C254_types_refuted.

(** ** After a failure *)
(** A labelling that always fails fails only once: the next read answers from what was stored, or with Python's [None]. *)
Theorem C255_failed_refuted : exists argsort r10 l r, fail l <> Never /\
  fst (reads argsort r10 l [Near; Near] empty) = [None; Some (Numbers (Some r))] /\
  exists l', fail l' <> Never /\ fst (reads argsort r10 l' [Near; Near] empty) = [None; Some (Numbers None)].
Proof.
  exists sort_idx, same, (some_labeler Late), [9 # 10; 11 # 10]%Q. split; [discriminate|]. split; [vm_compute; reflexivity|].
  exists (some_labeler DuringRadii). split; [discriminate|vm_compute; reflexivity].
Qed.
Print Assumptions C255_failed_refuted.
(** A failure before the graph is stored repeats. *)
Theorem C260_before : forall argsort r10 l, fail l = Before -> forall h, fst (reads argsort r10 l h empty) = map (fun _ => None) h.
Proof.
  intros argsort r10 l F h.
  assert (B : bifurcation_graph argsort l empty = (None, empty)) by (unfold bifurcation_graph; rewrite bind_read; cbn [graph empty]; unfold get_bifurcation_graph; now rewrite F).
  assert (bind_no : forall A C (m : M A) (k : A -> M C), m empty = (None, empty) -> bind m k empty = (None, empty)) by (intros A C m k H; unfold bind; now rewrite H).
  assert (N : atom_nn_elf_radii argsort l empty = (None, empty)) by (unfold atom_nn_elf_radii; rewrite bind_read; cbn [nn empty]; now apply bind_no).
  assert (R : atom_elf_radii argsort r10 l empty = (None, empty)) by (unfold atom_elf_radii; rewrite bind_read; cbn [ra empty]; apply bind_no; now apply bind_no).
  assert (E : atom_nn_elf_radii_e argsort l empty = (None, empty)) by (unfold atom_nn_elf_radii_e; rewrite bind_read; cbn [nn_e empty]; apply bind_no; now apply bind_no).
  assert (RE : atom_elf_radii_e argsort r10 l empty = (None, empty)) by (unfold atom_elf_radii_e; rewrite bind_read; cbn [ra_e empty]; apply bind_no; now apply bind_no).
  assert (G : forall g, get argsort r10 l g empty = (None, empty)).
  { intros g. destruct g; cbn [get]; unfold answered; apply bind_no; try assumption.
    - unfold nearest_neighbor_data. rewrite bind_read. cbn [nn_d empty]. now apply bind_no.
    - unfold atom_nn_elf_radii_types. rewrite bind_read. cbn [nn_t empty]. apply bind_no. now apply bind_no.
    - unfold atom_elf_radii_types. rewrite bind_read. cbn [ra_t empty]. apply bind_no. rewrite bind_read. cbn [ra_t empty].
      erewrite bind_ok by reflexivity. change (with_ra None None empty) with empty. now apply bind_no.
    - unfold nearest_neighbor_data_e. rewrite bind_read. cbn [nn_de empty]. apply bind_no. now apply bind_no.
    - unfold atom_nn_elf_radii_types_e. rewrite bind_read. cbn [nn_te empty]. apply bind_no. now apply bind_no.
    - unfold atom_elf_radii_types_e. rewrite bind_read. cbn [ra_te empty]. apply bind_no. now apply bind_no. }
  induction h as [|g h IH]; [reflexivity|]. cbn [reads map]. rewrite G. destruct (reads argsort r10 l h empty) as [b c]. cbn in *. now rewrite IH.
Qed.
Print Assumptions C260_before.
Example C260_ex : fst (reads sort_idx same (some_labeler Before) [RadiiTypesE; Radii] empty) = [None; None].
Proof. apply (C260_before sort_idx same (some_labeler Before) eq_refl [RadiiTypesE; Radii]). Qed.

(** ** Two labelers *)
Fixpoint spin_reads argsort r10 lu ld (h : list spin_getter) (s : spins) : list (option answer) * spins :=
  match h with
  | [] => ([], s)
  | g :: h => let '(a, s) := spin_get argsort r10 lu ld g s in let '(b, s) := spin_reads argsort r10 lu ld h s in (a :: b, s)
  end.
(** The mean of each place, and whether either is true. *)
Definition placewise {A} (dflt : A) (f : A -> A -> A) (a b m : list A) : Prop := List.length a = List.length b /\ List.length m = List.length a /\
  forall i, (i < List.length a)%nat -> nth i m dflt = f (nth i a dflt) (nth i b dflt).
Definition means : list Q -> list Q -> list Q -> Prop := placewise 0%Q (fun a b => (a + b) / 2)%Q.
Definition eithers : list bool -> list bool -> list bool -> Prop := placewise false orb.
Lemma map2_placewise {A} (dflt : A) f a : forall b m, placewise dflt f a b m -> map2 f a b = Some m.
Proof.
  induction a as [|q a IH]; intros [|q' b] [|q2 m] (H1 & H2 & H3); try discriminate; [reflexivity|]. cbn.
  rewrite (IH b m).
  - cbn. specialize (H3 0%nat ltac:(cbn; lia)). cbn in H3. now rewrite H3.
  - repeat split; [now injection H1|now injection H2|]. intros i Hi. apply (H3 (S i)). cbn. lia.
Qed.
Definition unread {A} (o : option A) : bool := match o with None => true | Some _ => false end.
Section Both.
Variable argsort : list Q -> list nat.
Variable r10 : Q -> Q.
Variables lu ld : labeler.
Variables xu yu xd yd : list (Q * bool).
Hypothesis Lu : labelled argsort lu xu yu.
Hypothesis Ld : labelled argsort ld xd yd.
Variables mr mn : list Q.
Variables tr tn : list bool.
Hypothesis Hmr : averages (map r10 (map fst xu)) (map r10 (map fst xd)) = Some mr.
Hypothesis Hmn : averages (r_radii (base lu)) (r_radii (base ld)) = Some mn.
Hypothesis Htr : map2 orb (map snd xu) (map snd xd) = Some tr.
Hypothesis Htn : map2 orb (r_types (base lu)) (r_types (base ld)) = Some tn.
Definition spin_expected (g : spin_getter) : answer :=
  match g with
  | Up g => expected r10 lu xu yu g
  | Down g => expected r10 ld xd yd g
  | SData => Pairs (Some (r_data (base lu)))
  | SRadii => Numbers (Some mr)
  | SNear => Numbers (Some mn)
  | SRadiiTypes => Kinds (Some tr)
  | SNearTypes => Kinds (Some tn)
  end.
Variable strong : bool.
Hypothesis Hs : strong = true -> r_data (base lu) = r_data (base ld).
Definition still_new (s : spins) : bool := unread (s_radii s) && unread (s_near s).
Definition both (s : spins) : Prop := shape lu xu yu (still_new s) true (up s) /\ shape ld xd yd (still_new s) strong (down s) /\
  (s_data s = None \/ s_data s = Some (r_data (base lu))) /\ (s_radii s = None \/ s_radii s = Some mr) /\ (s_near s = None \/ s_near s = Some mn) /\
  (s_rt s = None \/ s_rt s = Some tr) /\ (s_nt s = None \/ s_nt s = Some tn).
Definition asked (g : spin_getter) : Prop := match g with Down g => strong = true \/ own g = true | _ => True end.
Lemma inner {l x y n b} g f c a c' : labelled argsort l x y -> shape l x y n b c -> (forall c, get argsort r10 l g c = answered Numbers f c) -> own g = true ->
  f c = (a, c') -> exists r, a = Some r /\ expected r10 l x y g = Numbers r /\ shape l x y false b c'.
Proof.
  intros (Hm & Hf & Hx & Hy) S G O F. pose proof (get_step argsort r10 l x y Hx Hm Hf Hy n b g c S) as P. rewrite G in P. unfold answered, bind in P. rewrite F in P.
  destruct a as [r|]; cbn in P; destruct P as [P1 P2]; specialize (P2 (or_intror O)); [|discriminate]. injection P2 as P2. exists r. split; [reflexivity|]. split; [now symmetry|]. now destruct g.
Qed.
Lemma radii_step s : both s -> exists s', spin_radii argsort r10 lu ld s = (Some mr, s') /\ both s' /\ s_radii s' = Some mr.
Proof.
  intros (Su & Sd & Da & Ra & Rest). unfold spin_radii. destruct (s_radii s) as [r|] eqn:R.
  - destruct Ra as [Ra|Ra]; [discriminate|]. injection Ra as ->. exists s. split; [reflexivity|]. split; [|exact R]. unfold both. rewrite R. tauto.
  - unfold average_of. destruct (atom_elf_radii argsort r10 lu (up s)) as [a u] eqn:A.
    destruct (inner Radii _ _ _ _ Lu Su (fun _ => eq_refl) eq_refl A) as (ru & -> & Eu & Su'). cbn [down with_up].
    destruct (atom_elf_radii argsort r10 ld (down s)) as [b d] eqn:B.
    destruct (inner Radii _ _ _ _ Ld Sd (fun _ => eq_refl) eq_refl B) as (rd & -> & Ed & Sd'). cbn in Eu, Ed. injection Eu as <-. injection Ed as <-.
    rewrite Hmr. eexists. split; [reflexivity|]. split; [|reflexivity]. destruct Rest as (N1 & N2 & N3). unfold both, still_new. cbn. repeat split; auto.
Qed.
Lemma near_step s : both s -> exists s', spin_near argsort lu ld s = (Some mn, s') /\ both s' /\ s_near s' = Some mn.
Proof.
  intros (Su & Sd & Da & Ra & Na & Rest). unfold spin_near. destruct (s_near s) as [r|] eqn:R.
  - destruct Na as [Na|Na]; [discriminate|]. injection Na as ->. exists s. split; [reflexivity|]. split; [|exact R]. unfold both. rewrite R. tauto.
  - unfold average_of. destruct (atom_nn_elf_radii argsort lu (up s)) as [a u] eqn:A.
    destruct (inner Near _ _ _ _ Lu Su (fun _ => eq_refl) eq_refl A) as (ru & -> & Eu & Su'). cbn [down with_up].
    destruct (atom_nn_elf_radii argsort ld (down s)) as [b d] eqn:B.
    destruct (inner Near _ _ _ _ Ld Sd (fun _ => eq_refl) eq_refl B) as (rd & -> & Ed & Sd'). cbn in Eu, Ed. injection Eu as <-. injection Ed as <-.
    rewrite Hmn. eexists. split; [reflexivity|]. split; [|reflexivity]. destruct Rest as (N2 & N3). unfold both, still_new. cbn. rewrite Bool.andb_false_r. repeat split; auto.
Qed.
Lemma made_types {l x y b c} : shape l x y false b c -> ra_t c = Some (map snd x) /\ nn_t c = Some (r_types (base l)).
Proof. intros [d H|d e z H1 H2 H3]; [discriminate|]. split; reflexivity. Qed.
Lemma spin_step g s : both s -> let '(a, s') := spin_get argsort r10 lu ld g s in both s' /\ (asked g -> a = Some (spin_expected g)).
Proof.
  intros B. pose proof B as (Su & Sd & Da & Ra & Na & Rt & Nt). pose proof Lu as (Um & Uf & Ux & Uy). pose proof Ld as (Dm & Df & Dx & Dy). destruct g as [g|g| | | | |]; cbn [spin_get].
  - pose proof (get_step argsort r10 lu xu yu Ux Um Uf Uy _ true g _ Su) as P. destruct (get argsort r10 lu g (up s)) as [a u]. destruct P as [P1 P2].
    split; [|cbn; auto]. unfold both. split; [|auto 10]. change (still_new (with_up u s)) with (still_new s). cbn [up with_up]. destruct g; first [exact P1|apply shape_new; exact P1].
  - pose proof (get_step argsort r10 ld xd yd Dx Dm Df Dy _ strong g _ Sd) as P. destruct (get argsort r10 ld g (down s)) as [a u]. destruct P as [P1 P2].
    split; [|cbn; auto]. unfold both. split; [exact Su|]. split; [|auto 10]. change (still_new (with_down u s)) with (still_new s). cbn [down with_down]. destruct g; first [exact P1|apply shape_new; exact P1].
  - unfold spin_data. destruct (s_data s) as [d|] eqn:D.
    + destruct Da as [Da|Da]; [discriminate|]. injection Da as ->. split; [exact B|reflexivity].
    + pose proof (get_step argsort r10 lu xu yu Ux Um Uf Uy _ true Data _ Su) as P. cbn [get] in P. unfold answered, bind in P.
      destruct (nearest_neighbor_data argsort lu (up s)) as [[a|] u]; cbn in P; destruct P as [P1 P2]; specialize (P2 (or_introl eq_refl)); [|discriminate].
      injection P2 as ->. split; [|reflexivity]. unfold both. split; [exact P1|]. split; [|cbn; auto 10]. cbn [down with_data with_down with_up].
      change (still_new _) with (still_new s). destruct Sd as [d N H|d e z H1 H2 H3]; cbn.
      * apply Fresh; [exact N|]. intros S. right. now rewrite (Hs S).
      * apply (Made ld xd yd _ strong (r_data (base lu)) e z); auto.
  - destruct (radii_step s B) as (s' & E & B' & _). rewrite E. split; [exact B'|reflexivity].
  - destruct (near_step s B) as (s' & E & B' & _). rewrite E. split; [exact B'|reflexivity].
  - unfold spin_radii_types. destruct (s_rt s) as [r|] eqn:R.
    + destruct Rt as [Rt|Rt]; [discriminate|]. injection Rt as ->. split; [exact B|reflexivity].
    + destruct (radii_step s B) as (s' & E & B' & Z). rewrite E. pose proof B' as (Su' & Sd' & Rest). unfold still_new in Su', Sd'. rewrite Z in Su', Sd'. cbn [unread andb] in Su', Sd'.
      destruct (made_types Su') as [-> _]. destruct (made_types Sd') as [-> _]. cbn [either]. rewrite Htr. split; [|reflexivity]. destruct B' as (B1 & B2 & B3 & B4 & B5 & B6 & B7). unfold both. change (still_new (with_rt (Some tr) s')) with (still_new s'). cbn. auto 10.
  - unfold spin_near_types. destruct (s_nt s) as [r|] eqn:R.
    + destruct Nt as [Nt|Nt]; [discriminate|]. injection Nt as ->. split; [exact B|reflexivity].
    + destruct (near_step s B) as (s' & E & B' & Z). rewrite E. pose proof B' as (Su' & Sd' & Rest). unfold still_new in Su', Sd'. rewrite Z in Su', Sd'. cbn [unread] in Su', Sd'. rewrite Bool.andb_false_r in Su', Sd'.
      destruct (made_types Su') as [_ ->]. destruct (made_types Sd') as [_ ->]. cbn [either]. rewrite Htn. split; [|reflexivity]. destruct B' as (B1 & B2 & B3 & B4 & B5 & B6 & B7). unfold both. change (still_new (with_nt (Some tn) s')) with (still_new s'). cbn. auto 10.
Qed.
End Both.

(** Both labellings end, and both have as many atoms and pairs of neighbours. *)
Definition both_labelled argsort r10 lu ld xu yu xd yd mr mn tr tn : Prop :=
  labelled argsort lu xu yu /\ labelled argsort ld xd yd /\ means (map r10 (map fst xu)) (map r10 (map fst xd)) mr /\ means (r_radii (base lu)) (r_radii (base ld)) mn /\
  eithers (map snd xu) (map snd xd) tr /\ eithers (r_types (base lu)) (r_types (base ld)) tn.
(** What is read of the down spin is its own: radii and types always, pairs only if both spins have the same. *)
Definition safe lu ld (g : spin_getter) : Prop := match g with Down g => own g = true \/ r_data (base lu) = r_data (base ld) | _ => True end.

Theorem C258_spin : forall argsort r10 lu ld xu yu xd yd mr mn tr tn, both_labelled argsort r10 lu ld xu yu xd yd mr mn tr tn ->
  forall h g, safe lu ld g ->
    fst (spin_get argsort r10 lu ld g (snd (spin_reads argsort r10 lu ld h spin_empty))) = Some (spin_expected r10 lu ld xu yu xd yd mr mn tr tn g).
Proof.
  intros argsort r10 lu ld xu yu xd yd mr mn tr tn (Lu & Ld & Mr & Mn & Tr & Tn) h g Sg. apply map2_placewise in Mr. apply map2_placewise in Mn. apply map2_placewise in Tr. apply map2_placewise in Tn.
  assert (K : forall b : bool, (b = true -> r_data (base lu) = r_data (base ld)) -> asked b g ->
    fst (spin_get argsort r10 lu ld g (snd (spin_reads argsort r10 lu ld h spin_empty))) = Some (spin_expected r10 lu ld xu yu xd yd mr mn tr tn g)).
  { intros b Hb A.
    assert (S : both lu ld xu yu xd yd mr mn tr tn b (snd (spin_reads argsort r10 lu ld h spin_empty))).
    { enough (K : forall s, both lu ld xu yu xd yd mr mn tr tn b s -> both lu ld xu yu xd yd mr mn tr tn b (snd (spin_reads argsort r10 lu ld h s))).
      { apply K. repeat split; cbn; auto; apply Fresh; auto. }
      induction h as [|k h IH]; intros s Hc; [exact Hc|]. cbn [spin_reads].
      pose proof (spin_step argsort r10 lu ld xu yu xd yd Lu Ld mr mn tr tn Mr Mn Tr Tn b Hb k s Hc) as S. destruct (spin_get argsort r10 lu ld k s) as [a s']. destruct S as [S1 _].
      specialize (IH s' S1). destruct (spin_reads argsort r10 lu ld h s') as [bb s'']. exact IH. }
    pose proof (spin_step argsort r10 lu ld xu yu xd yd Lu Ld mr mn tr tn Mr Mn Tr Tn b Hb g _ S) as P. destruct (spin_get argsort r10 lu ld g _) as [a s']. destruct P as [_ P]. cbn. now apply P. }
  destruct g as [g|g| | | | |]; try (apply (K false); [discriminate|exact I]).
  destruct Sg as [Sg|Sg]; [apply (K false); [discriminate|right; exact Sg]|apply (K true); [auto|left; reflexivity]].
Qed.
Print Assumptions C258_spin.

(** The same two atoms, with the pairs found in the other order. *)
Definition other_labeler : labeler := {| base := {| r_radii := [12 # 10; 8 # 10]%Q; r_types := [false; false]; r_data := [(1, 0); (0, 1)]%nat |};
  elec := some_elec; atoms := 2; electrides := 0; marks := true; fail := Never |}.
Definition spin_x := ([(9 # 10, true); (11 # 10, true)]%Q, [(7 # 10, false); (11 # 10, true); (13 # 10, false)]%Q, [(8 # 10, false); (12 # 10, false)]%Q).
Lemma some_both : exists mr mn tr tn, both_labelled sort_idx same (some_labeler Never) other_labeler (fst (fst spin_x)) (snd (fst spin_x)) (snd spin_x) (snd spin_x) mr mn tr tn /\
  mn = [((9 # 10) + (12 # 10)) / 2; ((11 # 10) + (8 # 10)) / 2]%Q.
Proof.
  exists [((9 # 10) + (8 # 10)) / 2; ((11 # 10) + (12 # 10)) / 2]%Q, [((9 # 10) + (12 # 10)) / 2; ((11 # 10) + (8 # 10)) / 2]%Q, [true; true], [true; true]. split; [|reflexivity].
  split; [repeat split; vm_compute; reflexivity|]. split; [repeat split; vm_compute; reflexivity|].
  repeat apply conj; try reflexivity; (intros [|[|i]] Hi; [reflexivity..|cbn in Hi; lia]).
Qed.
Example C258_ex : fst (spin_get sort_idx same (some_labeler Never) other_labeler (Down RadiiTypes) (snd (spin_reads sort_idx same (some_labeler Never) other_labeler [SData; SRadii; Up DataE] spin_empty))) =
  Some (Kinds (Some [false; false])).
Proof. destruct some_both as (mr & mn & tr & tn & H & _). refine (C258_spin _ _ _ _ _ _ _ _ _ _ _ _ H [SData; SRadii; Up DataE] (Down RadiiTypes) _). now left. Qed.

(** ** The pairs of the down spin *)
Theorem C256_down_refuted : exists argsort r10 lu ld xu yu xd yd mr mn tr tn d d', both_labelled argsort r10 lu ld xu yu xd yd mr mn tr tn /\ d <> d' /\
  fst (spin_reads argsort r10 lu ld [Down Data; SData; Down Data; Down Near] spin_empty) =
    [Some (Pairs (Some d)); Some (Pairs (Some d')); Some (Pairs (Some d')); Some (Numbers (Some (r_radii (base ld))))].
Proof.
  destruct some_both as (mr & mn & tr & tn & H & _).
  exists sort_idx, same, (some_labeler Never), other_labeler, (fst (fst spin_x)), (snd (fst spin_x)), (snd spin_x), (snd spin_x), mr, mn, tr, tn, [(1, 0); (0, 1)]%nat, [(0, 1); (1, 0)]%nat.
  split; [exact H|]. split; [discriminate|vm_compute; reflexivity].
Qed.
Print Assumptions C256_down_refuted.

(** ** The mean radii of pairs *)
(** The radius that a labeler finds for a pair of atoms. *)
Definition pair_radius (l : labeler) (p : nat * nat) (q : Q) : Prop := exists i, nth_error (r_data (base l)) i = Some p /\ nth_error (r_radii (base l)) i = Some q.
Theorem C257_mean_refuted : exists argsort r10 lu ld xu yu xd yd mr mn tr tn d m i p a b q, both_labelled argsort r10 lu ld xu yu xd yd mr mn tr tn /\
  fst (spin_reads argsort r10 lu ld [SData; SNear] spin_empty) = [Some (Pairs (Some d)); Some (Numbers (Some m))] /\
  nth_error d i = Some p /\ nth_error m i = Some q /\ pair_radius lu p a /\ pair_radius ld p b /\ NoDup (r_data (base lu)) /\ NoDup (r_data (base ld)) /\
  ~ (q == (a + b) / 2)%Q.
Proof.
  destruct some_both as (mr & mn & tr & tn & H & E).
  exists sort_idx, same, (some_labeler Never), other_labeler, (fst (fst spin_x)), (snd (fst spin_x)), (snd spin_x), (snd spin_x), mr, mn, tr, tn, [(0, 1); (1, 0)]%nat, [((9 # 10) + (12 # 10)) / 2; ((11 # 10) + (8 # 10)) / 2]%Q, 0%nat, (0, 1)%nat, (9 # 10)%Q, (8 # 10)%Q, (((9 # 10) + (12 # 10)) / 2)%Q.
  split; [exact H|]. split; [vm_compute; reflexivity|]. split; [reflexivity|]. split; [reflexivity|]. split; [exists 0%nat; auto|]. split; [exists 1%nat; auto|].
  split; [|split]; [repeat (constructor; [cbn; intuition congruence|]); constructor..|]. vm_compute. discriminate.
Qed.
Print Assumptions C257_mean_refuted.
(** With the same pairs in the same order the mean is that of the pair. *)
Theorem C259_mean : forall argsort r10 lu ld xu yu xd yd mr mn tr tn, both_labelled argsort r10 lu ld xu yu xd yd mr mn tr tn -> r_data (base lu) = r_data (base ld) ->
  forall h d m, fst (spin_get argsort r10 lu ld SData (snd (spin_reads argsort r10 lu ld h spin_empty))) = Some (Pairs (Some d)) ->
    fst (spin_get argsort r10 lu ld SNear (snd (spin_reads argsort r10 lu ld h spin_empty))) = Some (Numbers (Some m)) ->
  forall i p q, nth_error d i = Some p -> nth_error m i = Some q -> exists a b, pair_radius lu p a /\ pair_radius ld p b /\ q = ((a + b) / 2)%Q.
Proof.
  intros argsort r10 lu ld xu yu xd yd mr mn tr tn B E h d m Hd Hm i p q Hp Hq.
  rewrite (C258_spin _ _ _ _ _ _ _ _ _ _ _ _ B h SData I) in Hd. rewrite (C258_spin _ _ _ _ _ _ _ _ _ _ _ _ B h SNear I) in Hm. cbn in Hd, Hm. injection Hd as <-. injection Hm as <-.
  destruct B as (_ & _ & _ & (L1 & L2 & L3) & _).
  assert (I1 : (i < List.length mn)%nat) by (apply nth_error_Some; congruence). rewrite L2 in I1. specialize (L3 i I1).
  exists (nth i (r_radii (base lu)) 0%Q), (nth i (r_radii (base ld)) 0%Q).
  split; [exists i; split; [exact Hp|now apply nth_error_nth']|]. split; [exists i; split; [now rewrite <- E|apply nth_error_nth'; now rewrite <- L1]|].
  apply nth_error_nth with (d := 0%Q) in Hq. now rewrite <- Hq.
Qed.
Print Assumptions C259_mean.
Example C259_ex : fst (spin_reads sort_idx same (some_labeler Never) (some_labeler Never) [SNear; SData; Down Data] spin_empty) =
  [Some (Numbers (Some [((9 # 10) + (9 # 10)) / 2; ((11 # 10) + (11 # 10)) / 2]%Q)); Some (Pairs (Some [(0, 1); (1, 0)]%nat)); Some (Pairs (Some [(0, 1); (1, 0)]%nat))].
Proof. vm_compute. reflexivity. Qed.
Example C258_types_ex : fst (spin_reads sort_idx same (some_labeler Never) other_labeler [SNearTypes; Down NearTypes; SRadiiTypes] spin_empty) =
  [Some (Kinds (Some [true; true])); Some (Kinds (Some [false; false])); Some (Kinds (Some [true; true]))].
Proof. vm_compute. reflexivity. Qed.
