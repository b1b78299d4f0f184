(** The stored neighbours and radii of the ELF labelers: core/labelers/elf_labeler/elf_labeler.py lines 277-279, 405-620 and
    2036-2133, elf_labeler_spin.py lines 101-108 and 123-226.

    A labeler is given by what its calculations would yield: [base] and [elec] are the results of
    [_get_nn_atom_elf_radii] without and with electrides, [marks] tells whether [_mark_metallic_or_bare] looks at a
    feature (and reads [atom_elf_radii], line 2464), [fail] where [_get_bifurcation_graph] raises.  A getter maps the
    stored attributes to an answer, or an exception ([None]), and the new attributes. *)
From Coq Require Import QArith.
From Verif Require Import Base RootsModel TextModel ReportModel.
Local Open Scope Z_scope.

Record run := { r_radii : list Q; r_types : list bool; r_data : list (nat * nat) }.
(** [Before]: Bader raises, and the graph is not stored; [Radii]: the radii cannot be calculated; [Late]: an atom or a
    feature has no label, lines 2111-2129. *)
Inductive failure := Never | Before | DuringRadii | Late.
Record labeler := { base : run; elec : run; atoms : nat; electrides : nat; marks : bool; fail : failure }.
Record cache := { graph : bool; nn : option (list Q); nn_t : option (list bool); nn_d : option (list (nat * nat));
  nn_e : option (list Q); nn_te : option (list bool); nn_de : option (list (nat * nat));
  ra : option (list Q); ra_t : option (list bool); ra_e : option (list Q); ra_te : option (list bool) }.
Definition empty : cache := {| graph := false; nn := None; nn_t := None; nn_d := None; nn_e := None; nn_te := None; nn_de := None;
  ra := None; ra_t := None; ra_e := None; ra_te := None |}.
Definition with_graph (c : cache) : cache := {| graph := true; nn := nn c; nn_t := nn_t c; nn_d := nn_d c; nn_e := nn_e c;
  nn_te := nn_te c; nn_de := nn_de c; ra := ra c; ra_t := ra_t c; ra_e := ra_e c; ra_te := ra_te c |}.
Definition with_nn r t d (c : cache) : cache := {| graph := graph c; nn := r; nn_t := t; nn_d := d; nn_e := nn_e c;
  nn_te := nn_te c; nn_de := nn_de c; ra := ra c; ra_t := ra_t c; ra_e := ra_e c; ra_te := ra_te c |}.
Definition with_nn_e r t d (c : cache) : cache := {| graph := graph c; nn := nn c; nn_t := nn_t c; nn_d := nn_d c; nn_e := r;
  nn_te := t; nn_de := d; ra := ra c; ra_t := ra_t c; ra_e := ra_e c; ra_te := ra_te c |}.
Definition with_ra r t (c : cache) : cache := {| graph := graph c; nn := nn c; nn_t := nn_t c; nn_d := nn_d c; nn_e := nn_e c;
  nn_te := nn_te c; nn_de := nn_de c; ra := r; ra_t := t; ra_e := ra_e c; ra_te := ra_te c |}.
Definition with_ra_e r t (c : cache) : cache := {| graph := graph c; nn := nn c; nn_t := nn_t c; nn_d := nn_d c; nn_e := nn_e c;
  nn_te := nn_te c; nn_de := nn_de c; ra := ra c; ra_t := ra_t c; ra_e := r; ra_te := t |}.

Definition M (A : Type) : Type := cache -> option A * cache.
Definition ret {A} (a : A) : M A := fun c => (Some a, c).
Definition raise {A} : M A := fun c => (None, c).
Definition bind {A B} (m : M A) (f : A -> M B) : M B := fun c => match m c with (Some a, c) => f a c | (None, c) => (None, c) end.
Definition read {A} (f : cache -> A) : M A := fun c => (Some (f c), c).
Definition modify (f : cache -> cache) : M unit := fun c => (Some tt, f c).
Notation "'let!' x := m 'in' k" := (bind m (fun x => k)) (at level 200, x pattern, m at level 100, k at level 200).

Section Labeler.
Variable argsort : list Q -> list nat.
Variable r10 : Q -> Q.
Variable l : labeler.
(** [_get_atom_elf_radii]; without data the unpacking raises. *)
Definition smallest (n : nat) (r : option (list Q)) (t : option (list bool)) (d : option (list (nat * nat))) : M (list (Q * bool)) :=
  match r, t, d with
  | Some r, Some t, Some d => match get_atom_elf_radii argsort n r t (map fst d) with Done x => ret x | _ => raise end
  | _, _, _ => raise
  end.
(** Lines 457-462, where the graph is stored already. *)
Definition store_ra (n : nat) (r : option (list Q)) (t : option (list bool)) (d : option (list (nat * nat))) : M unit :=
  let! x := smallest n r t d in modify (with_ra (Some (map fst x)) (Some (map snd x))).
(** Lines 2036-2133. *)
Definition get_bifurcation_graph : M unit :=
  match fail l with
  | Before => raise
  | DuringRadii => let! _ := modify with_graph in raise
  | _ =>
      let! _ := modify with_graph in
      let! _ := modify (with_nn (Some (r_radii (base l))) (Some (r_types (base l))) (Some (r_data (base l)))) in
      let! old := read ra in
      let! _ := match marks l, old with
        | true, None => store_ra (atoms l) (Some (r_radii (base l))) (Some (r_types (base l))) (Some (r_data (base l)))
        | _, _ => ret tt
        end in
      match fail l with Late => raise | _ => ret tt end
  end.
(** Lines 277-279. *)
Definition bifurcation_graph : M unit := let! g := read graph in if g then ret tt else get_bifurcation_graph.
(** Lines 418-421. *)
Definition nearest_neighbor_data : M (option (list (nat * nat))) :=
  let! d := read nn_d in
  let! _ := match d with None => bifurcation_graph | Some _ => ret tt end in read nn_d.
(** Lines 541-543. *)
Definition atom_nn_elf_radii : M (option (list Q)) :=
  let! r := read nn in
  let! _ := match r with None => bifurcation_graph | Some _ => ret tt end in read nn.
(** Lines 556-559. *)
Definition atom_nn_elf_radii_types : M (option (list bool)) :=
  let! t := read nn_t in
  let! _ := match t with None => let! _ := atom_nn_elf_radii in ret tt | Some _ => ret tt end in read nn_t.
(** Lines 455-464. *)
Definition atom_elf_radii : M (option (list Q)) :=
  let! r := read ra in
  let! _ := match r with
    | None => let! r := atom_nn_elf_radii in let! t := read nn_t in let! d := nearest_neighbor_data in store_ra (atoms l) r t d
    | Some _ => ret tt
    end in
  let! r := read ra in ret (option_map (map r10) r).
(** Lines 480-484. *)
Definition atom_elf_radii_types : M (option (list bool)) :=
  let! t := read ra_t in
  let! _ := match t with
    | None => let! t := read ra_t in let! _ := modify (with_ra None t) in let! _ := atom_elf_radii in ret tt
    | Some _ => ret tt
    end in read ra_t.
(** Lines 572-604; [_labeled_covalent] is never [None], and [electride_structure] makes the graph. *)
Definition atom_nn_elf_radii_e : M (option (list Q)) :=
  let! r := read nn_e in
  let! _ := match r with
    | None =>
        let! _ := bifurcation_graph in
        if Nat.eqb (electrides l) 0 then
          let! r := atom_nn_elf_radii in
          let! t := read nn_t in
          let! d := nearest_neighbor_data in
          modify (with_nn_e r t d)
        else modify (with_nn_e (Some (r_radii (elec l))) (Some (r_types (elec l))) (Some (r_data (elec l))))
    | Some _ => ret tt
    end in read nn_e.
(** Lines 617-620: the types without electrides are returned. *)
Definition atom_nn_elf_radii_types_e : M (option (list bool)) :=
  let! t := read nn_te in
  let! _ := match t with None => let! _ := atom_nn_elf_radii_e in ret tt | Some _ => ret tt end in read nn_t.
(** Lines 436-439. *)
Definition nearest_neighbor_data_e : M (option (list (nat * nat))) :=
  let! d := read nn_de in
  let! _ := match d with None => let! _ := atom_nn_elf_radii_e in ret tt | Some _ => ret tt end in read nn_de.
(** Lines 496-509. *)
Definition atom_elf_radii_e : M (option (list Q)) :=
  let! r := read ra_e in
  let! _ := match r with
    | None =>
        let! _ := bifurcation_graph in
        let! r := atom_nn_elf_radii_e in
        let! t := read nn_te in
        let! d := nearest_neighbor_data_e in
        let! x := smallest (atoms l + electrides l) r t d in modify (with_ra_e (Some (map fst x)) (Some (map snd x)))
    | Some _ => ret tt
    end in
  let! r := read ra_e in ret (option_map (map r10) r).
(** Lines 524-527. *)
Definition atom_elf_radii_types_e : M (option (list bool)) :=
  let! t := read ra_te in
  let! _ := match t with None => let! _ := atom_elf_radii_e in ret tt | Some _ => ret tt end in read ra_te.

Inductive getter := Data | Near | NearTypes | Radii | RadiiTypes | DataE | NearE | NearTypesE | RadiiE | RadiiTypesE.
(** [None] in an answer is Python's [None]; [true] in a list of types stands for "covalent". *)
Inductive answer := Pairs (d : option (list (nat * nat))) | Numbers (r : option (list Q)) | Kinds (t : option (list bool)).
Definition answered {A} (f : A -> answer) (m : M A) : M answer := let! a := m in ret (f a).
Definition get (g : getter) : M answer :=
  match g with
  | Data => answered Pairs nearest_neighbor_data
  | Near => answered Numbers atom_nn_elf_radii
  | NearTypes => answered Kinds atom_nn_elf_radii_types
  | Radii => answered Numbers atom_elf_radii
  | RadiiTypes => answered Kinds atom_elf_radii_types
  | DataE => answered Pairs nearest_neighbor_data_e
  | NearE => answered Numbers atom_nn_elf_radii_e
  | NearTypesE => answered Kinds atom_nn_elf_radii_types_e
  | RadiiE => answered Numbers atom_elf_radii_e
  | RadiiTypesE => answered Kinds atom_elf_radii_types_e
  end.
End Labeler.

(** ** Two spins: elf_labeler_spin.py, lines 136-142, 156-160, 176-186, 200-204 and 217-226 *)
Record spins := { up : cache; down : cache; s_data : option (list (nat * nat)); s_radii : option (list Q); s_near : option (list Q);
  s_rt : option (list bool); s_nt : option (list bool) }.
Definition spin_empty : spins := {| up := empty; down := empty; s_data := None; s_radii := None; s_near := None; s_rt := None; s_nt := None |}.
Definition with_up u (s : spins) : spins := {| up := u; down := down s; s_data := s_data s; s_radii := s_radii s; s_near := s_near s; s_rt := s_rt s; s_nt := s_nt s |}.
Definition with_down d (s : spins) : spins := {| up := up s; down := d; s_data := s_data s; s_radii := s_radii s; s_near := s_near s; s_rt := s_rt s; s_nt := s_nt s |}.
Definition with_data x (s : spins) : spins := {| up := up s; down := down s; s_data := x; s_radii := s_radii s; s_near := s_near s; s_rt := s_rt s; s_nt := s_nt s |}.
Definition with_radii x (s : spins) : spins := {| up := up s; down := down s; s_data := s_data s; s_radii := x; s_near := s_near s; s_rt := s_rt s; s_nt := s_nt s |}.
Definition with_near x (s : spins) : spins := {| up := up s; down := down s; s_data := s_data s; s_radii := s_radii s; s_near := x; s_rt := s_rt s; s_nt := s_nt s |}.
Definition with_rt x (s : spins) : spins := {| up := up s; down := down s; s_data := s_data s; s_radii := s_radii s; s_near := s_near s; s_rt := x; s_nt := s_nt s |}.
Definition with_nt x (s : spins) : spins := {| up := up s; down := down s; s_data := s_data s; s_radii := s_radii s; s_near := s_near s; s_rt := s_rt s; s_nt := x |}.
Inductive spin_getter := Up (g : getter) | Down (g : getter) | SData | SRadii | SNear | SRadiiTypes | SNearTypes.
(** [(a + b) / 2] and [a | b]; arrays of different lengths raise (one of length 1 would not: left out). *)
Fixpoint map2 {A} (f : A -> A -> A) (a b : list A) : option (list A) :=
  match a, b with
  | [], [] => Some []
  | x :: a, y :: b => option_map (cons (f x y)) (map2 f a b)
  | _, _ => None
  end.
Definition averages : list Q -> list Q -> option (list Q) := map2 (fun x y => (x + y) / 2)%Q.
Section Spin.
Variable argsort : list Q -> list nat.
Variable r10 : Q -> Q.
Variables lu ld : labeler.
Definition average_of (f : labeler -> M (option (list Q))) (s : spins) : option (list Q) * spins :=
  let '(a, u) := f lu (up s) in
  let s := with_up u s in
  match a with
  | None => (None, s)
  | Some a =>
      let '(b, d) := f ld (down s) in
      let s := with_down d s in
      match a, b with Some a, Some (Some b) => (averages a b, s) | _, _ => (None, s) end
  end.
(** Lines 136-142. *)
Definition spin_data (s : spins) : option (option (list (nat * nat))) * spins :=
  match s_data s with
  | Some x => (Some (Some x), s)
  | None =>
      let '(a, u) := nearest_neighbor_data argsort lu (up s) in
      let s := with_up u s in
      match a with
      | None => (None, s)
      | Some x => (Some x, with_data x (with_down (with_nn (nn (down s)) (nn_t (down s)) x (down s)) s))
      end
  end.
(** Lines 156-160 and 200-204. *)
Definition spin_radii (s : spins) : option (list Q) * spins :=
  match s_radii s with
  | Some x => (Some x, s)
  | None => let '(a, s) := average_of (atom_elf_radii argsort r10) s in
      match a with None => (None, s) | Some x => (Some x, with_radii (Some x) s) end
  end.
Definition spin_near (s : spins) : option (list Q) * spins :=
  match s_near s with
  | Some x => (Some x, s)
  | None => let '(a, s) := average_of (atom_nn_elf_radii argsort) s in
      match a with None => (None, s) | Some x => (Some x, with_near (Some x) s) end
  end.
(** Lines 176-186 and 217-226; [None | None] raises. *)
Definition either (a b : option (list bool)) : option (list bool) := match a, b with Some a, Some b => map2 orb a b | _, _ => None end.
Definition spin_radii_types (s : spins) : option (list bool) * spins :=
  match s_rt s with
  | Some x => (Some x, s)
  | None =>
      let '(a, s) := spin_radii s in
      match a with
      | None => (None, s)
      | Some _ => match either (ra_t (up s)) (ra_t (down s)) with None => (None, s) | Some x => (Some x, with_rt (Some x) s) end
      end
  end.
Definition spin_near_types (s : spins) : option (list bool) * spins :=
  match s_nt s with
  | Some x => (Some x, s)
  | None =>
      let '(a, s) := spin_near s in
      match a with
      | None => (None, s)
      | Some _ => match either (nn_t (up s)) (nn_t (down s)) with None => (None, s) | Some x => (Some x, with_nt (Some x) s) end
      end
  end.
Definition spin_get (g : spin_getter) (s : spins) : option answer * spins :=
  match g with
  | Up g => let '(a, u) := get argsort r10 lu g (up s) in (a, with_up u s)
  | Down g => let '(a, d) := get argsort r10 ld g (down s) in (a, with_down d s)
  | SData => let '(a, s) := spin_data s in (option_map Pairs a, s)
  | SRadii => let '(a, s) := spin_radii s in (option_map (fun x => Numbers (Some x)) a, s)
  | SNear => let '(a, s) := spin_near s in (option_map (fun x => Numbers (Some x)) a, s)
  | SRadiiTypes => let '(a, s) := spin_radii_types s in (option_map (fun x => Kinds (Some x)) a, s)
  | SNearTypes => let '(a, s) := spin_near_types s in (option_map (fun x => Kinds (Some x)) a, s)
  end.
End Spin.
