(** Union-find with image shifts, utilities/union_find.py lines 28-73, 112-150.
    The three arrays offset_x/y/z are one list of triples (they are always read and
    written together).  Offsets are unbounded integers (int8 in the caller). *)
From Verif Require Import Base GridModel NeighModel RootsModel UnionModel.

Definition oadd (a b : offset) : offset :=
  let '(a1, a2, a3) := a in let '(b1, b2, b3) := b in (a1 + b1, a2 + b2, a3 + b3).
Definition oneg (a : offset) : offset := let '(a1, a2, a3) := a in (- a1, - a2, - a3).
Definition osub (a b : offset) : offset := oadd a (oneg b).

(** Path-halving loop, lines 36-46. *)
Fixpoint halve (fuel : nat) (p : list Z) (o : list offset) (y : Z) : outcome (list Z * list offset) :=
  match fuel with
  | O => Running
  | S fuel' =>
      obind (oget (np_get p y)) (fun py =>
      if py =? y then Done (p, o)
      else obind (oget (np_get p py)) (fun ppy =>
      if ppy =? py then Done (p, o)
      else obind (oget (np_get o y)) (fun oy =>
           obind (oget (np_get o py)) (fun opy =>
           obind (oget (np_set o y (oadd oy opy))) (fun o' =>
           obind (oget (np_set p y ppy)) (fun p' =>
           obind (oget (np_get p' y)) (fun y' => halve fuel' p' o' y')))))))
  end.

(** Final climb, lines 49-57 (also lines 63-73, the version without compression). *)
Fixpoint climb_off (fuel : nat) (p : list Z) (o : list offset) (y : Z) (c : offset)
    : outcome (Z * offset) :=
  match fuel with
  | O => Running
  | S fuel' =>
      obind (oget (np_get p y)) (fun py =>
      if py =? y then Done (y, c)
      else obind (oget (np_get o y)) (fun oy => climb_off fuel' p o py (oadd c oy)))
  end.

(** [find_root_with_shift], lines 28-58. *)
Definition find_root_with_shift (fuel : nat) (p : list Z) (o : list offset) (x : Z)
    : outcome (list Z * list offset * Z * offset) :=
  obind (halve fuel p o x) (fun '(p', o') =>
  obind (climb_off fuel p' o' x (0, 0, 0)) (fun '(r, c) => Done (p', o', r, c))).

(** [find_root_with_shift_no_compression], lines 62-73. *)
Definition find_root_with_shift_nc (fuel : nat) p o x : outcome (Z * offset) :=
  climb_off fuel p o x (0, 0, 0).

Record sforest := { f_par : list Z; f_off : list offset; f_size : list Z; f_mask : list bool }.

Definition set_mask (m : list bool) (i : Z) (b : bool) : outcome (list bool) :=
  obind (oget (np_get m i)) (fun cur =>
  if Bool.eqb cur b then Done m else oget (np_set m i b)).

(** [union_with_shift], lines 112-150. *)
Definition union_with_shift (fuel : nat) (f : sforest) (a b : Z) (s : offset) : outcome sforest :=
  obind (find_root_with_shift fuel (f_par f) (f_off f) a) (fun '(p1, o1, ra, oa) =>
  obind (find_root_with_shift fuel p1 o1 b) (fun '(p2, o2, rb, ob) =>
  if ra =? rb then Done {| f_par := p2; f_off := o2; f_size := f_size f; f_mask := f_mask f |}
  else
  let c := osub (oadd s ob) oa in
  obind (oget (np_get (f_size f) ra)) (fun sa =>
  obind (oget (np_get (f_size f) rb)) (fun sb =>
  if sa <? sb then
    obind (oget (np_set p2 ra rb)) (fun p3 =>
    obind (oget (np_set o2 ra c)) (fun o3 =>
    obind (oget (np_set (f_size f) rb (sb + sa))) (fun sz =>
    obind (set_mask (f_mask f) rb true) (fun m1 =>
    obind (set_mask m1 ra false) (fun m2 =>
    Done {| f_par := p3; f_off := o3; f_size := sz; f_mask := m2 |})))))
  else
    obind (oget (np_set p2 rb ra)) (fun p3 =>
    obind (oget (np_set o2 rb (oneg c))) (fun o3 =>
    obind (oget (np_set (f_size f) ra (sa + sb))) (fun sz =>
    obind (set_mask (f_mask f) ra true) (fun m1 =>
    obind (set_mask m1 rb false) (fun m2 =>
    Done {| f_par := p3; f_off := o3; f_size := sz; f_mask := m2 |}))))))))).

Inductive s_op := SUnion (a b : nat) (s : offset) | SFind (x : nat).

(** A history of calls. *)
Fixpoint run_shift (fuel : nat) (ops : list s_op) (f : sforest) : outcome sforest :=
  match ops with
  | [] => Done f
  | SUnion a b s :: t =>
      obind (union_with_shift fuel f (Z.of_nat a) (Z.of_nat b) s) (run_shift fuel t)
  | SFind x :: t =>
      obind (find_root_with_shift fuel (f_par f) (f_off f) (Z.of_nat x)) (fun '(p, o, _, _) =>
      run_shift fuel t {| f_par := p; f_off := o; f_size := f_size f; f_mask := f_mask f |})
  end.

(** Initial arrays, surrounded_atoms.py lines 260-271 and domain_bifurcations.py:
    every element its own parent, zero offsets, size 1. *)
Definition shift_init (n : nat) : sforest :=
  {| f_par := map Z.of_nat (seq 0 n); f_off := repeat (0, 0, 0) n;
     f_size := repeat 1 n; f_mask := repeat false n |}.
