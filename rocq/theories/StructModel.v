(** [Structure] of core/toolkit/structure.py: labels, Miller indices and coordinates.

    Sites are their labels; lattices are matrices of rationals; [root] is the square root.  The classes of pymatgen
    below it are not modelled, except that assigning [site.label] changes the label. *)
From Coq Require Import Ascii String QArith Qround Qabs.
From Verif Require Import Base GridModel ChargeModel NearModel RefineModel TextModel VaspModel.
Local Open Scope Z_scope.

(** ** Labels, lines 175-211 *)
(** [grouped[label].append(site)] of a [defaultdict(list)]; sites are indices. *)
Fixpoint append_site (g : list (text * list nat)) (label : text) (i : nat) : list (text * list nat) :=
  match g with
  | [] => [(label, [i])]
  | (l, s) :: g => if text_eqb label l then (l, s ++ [i]) :: g else (l, s) :: append_site g label i
  end.
(** Lines 200-202. *)
Definition grouped (labels : list text) : list (text * list nat) :=
  fold_left (fun g '(i, l) => append_site g l i) (combine (seq 0 (List.length labels)) labels) [].
(** Line 209. *)
Definition new_label (label : text) (idx : nat) : text := label ++ "_"%char :: dec (Z.of_nat idx + 1).
(** Lines 204-209. *)
Definition relabel_group (ignore_uniq : bool) (out : list text) (e : text * list nat) : list text :=
  let '(label, sites) := e in
  if Nat.eqb (List.length sites) 0 || (Nat.eqb (List.length sites) 1 && ignore_uniq) then out
  else fold_left (fun out '(idx, site) => upd out site (new_label label idx)) (combine (seq 0 (List.length sites)) sites) out.
Definition relabel_sites (ignore_uniq : bool) (labels : list text) : list text :=
  fold_left (relabel_group ignore_uniq) (grouped labels) labels.
(** Lines 101-103: the labels after [structure.labels = new]; [None] is an AssertionError. *)
Definition set_labels (labels new : list text) : option (list text) :=
  if Nat.eqb (List.length new) (List.length labels) then Some labels else None.

(** ** Miller indices, lines 105-173 *)
Definition copy_add (a : vec) (e : vec) : vec := let '(x, y, z) := a in let '(u, v, w) := e in (x + u, y + v, z + w)%Q.
Definition mcross (a b : vec) : vec := let '(x, y, z) := a in let '(u, v, w) := b in (y * w - z * v, z * u - x * w, x * v - y * u)%Q.
Definition or_else {A} (a b : option A) : option A := match a with Some x => Some x | None => b end.
(** Lines 131-163; [None] is an AttributeError. *)
Definition plane_points (h k l : Z) : option (vec * vec * vec) :=
  let a1 := if h =? 0 then None else Some (1 / inject_Z h, 0, 0)%Q in
  let a2 := if k =? 0 then None else Some (0, 1 / inject_Z k, 0)%Q in
  let a3 := if l =? 0 then None else Some (0, 0, 1 / inject_Z l)%Q in
  let a1 := match a1 with Some a => Some a | None => option_map (fun a => copy_add a (1, 0, 0)%Q) (or_else a2 a3) end in
  let a2 := match a2 with Some a => Some a | None => option_map (fun a => copy_add a (0, 1, 0)%Q) (or_else a1 a3) end in
  let a3 := match a3 with Some a => Some a | None => option_map (fun a => copy_add a (0, 0, 1)%Q) (or_else a1 a2) end in
  match a1, a2, a3 with Some a1, Some a2, Some a3 => Some (a1, a2, a3) | _, _, _ => None end.
Definition miller_normal (m : mat) (h k l : Z) : option vec :=
  option_map (fun '(a1, a2, a3) => mcross (vsub (vmat a2 m) (vmat a1 m)) (vsub (vmat a3 m) (vmat a1 m))) (plane_points h k l).
Definition get_cart_from_miller (root : Q -> Q) (m : mat) (h k l : Z) : option vec :=
  option_map (fun n => vmap (fun x => x / root (norm2 n))%Q n) (miller_normal m h k l).

(** ** Coordinates *)
(** Lines 32-35: the coordinates of the structure and those of the caller afterwards. *)
Definition init_coords (coords : list vec) : list vec * list vec := let c := map (vmap mod1) coords in (c, c).
(** Lines 289-302: an array of dimension two has no third axis.  [Some None] is the result [None]. *)
Inductive np_coords := One (v : vec) | Many (l : list vec).
Definition merge_frac_coords (c : np_coords) : option (option vec) :=
  match c with
  | Many [] => Some None
  | One v => Some (Some v)
  | Many _ => None
  end.
