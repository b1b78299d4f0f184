(** Pointer resolution, label compaction and the on-grid method. *)
From Verif Require Import Base GridModel NeighModel.

(** Outcome of a Python call containing a [while True] loop: a value, a raised
    exception, or "still running after the given number of passes". *)
Inductive outcome (A : Type) : Type :=
| Done (a : A)
| Raised
| Running.
Arguments Done {A} a.
Arguments Raised {A}.
Arguments Running {A}.

Fixpoint sequence {A} (l : list (option A)) : option (list A) :=
  match l with
  | [] => Some []
  | None :: _ => None
  | Some x :: t => match sequence t with Some r => Some (x :: r) | None => None end
  end.

Fixpoint zlist_eqb (a b : list Z) : bool :=
  match a, b with
  | [], [] => true
  | x :: a', y :: b' => (x =? y) && zlist_eqb a' b'
  | _, _ => false
  end.

(** One pass of the branch with vacuum, base.py lines 303-307:
    [new = pointers.copy(); new[valid] = pointers[pointers[valid]]].
    An index outside [-n, n) raises IndexError. *)
Definition pass_valid (valid : list bool) (p : list Z) : option (list Z) :=
  sequence (map (fun vx : bool * Z => if fst vx then np_get p (snd vx) else Some (snd vx))
                (combine valid p)).

(** One pass of the branch without vacuum, base.py line 322: [pointers[pointers]]. *)
Definition pass_all (p : list Z) : option (list Z) :=
  sequence (map (fun x => np_get p x) p).

(** The [while True] loops, base.py lines 301-314 and 316-328.  In the first
    branch line 314 writes back only the valid entries; the others are equal in
    both arrays, so the array becomes [new_parents]. *)
Fixpoint roots_loop (pass : list Z -> option (list Z)) (fuel : nat) (p : list Z)
    : outcome (list Z) :=
  match fuel with
  | O => Running
  | S fuel' =>
      match pass p with
      | None => Raised
      | Some new => if zlist_eqb new p then Done p else roots_loop pass fuel' new
      end
  end.

(** [get_roots], base.py lines 279-329.  [valid] is computed once, before the loop
    (line 297). *)
Definition get_roots (num_vacuum : Z) (fuel : nat) (p : list Z) : outcome (list Z) :=
  if negb (num_vacuum =? 0)
  then roots_loop (pass_valid (map (fun x => negb (x =? -1)) p)) fuel p
  else roots_loop pass_all fuel p.

(** [np.unique]: sorted distinct values. *)
Fixpoint insert_uniq (x : Z) (l : list Z) : list Z :=
  match l with
  | [] => [x]
  | y :: t => if x <? y then x :: l else if x =? y then l else y :: insert_uniq x t
  end.
Definition np_unique (l : list Z) : list Z := fold_right insert_uniq [] l.

(** position of a value in an array (the inverse of [np.unique(return_inverse)]). *)
Fixpoint index_of (x : Z) (l : list Z) : Z :=
  match l with
  | [] => 0
  | y :: t => if x =? y then 0 else 1 + index_of x t
  end.

(** Label compaction, ongrid_method.py lines 57-61 (and neargrid_method.py): the
    inverse of [np.unique], shifted by one when -1 is among the roots. *)
Definition compact (roots : list Z) : list Z :=
  let u := np_unique roots in
  let inv := map (fun r => index_of r u) roots in
  if existsb (Z.eqb (-1)) u then map (fun x => x - 1) inv else inv.

Section Ongrid.
Variables nx ny nz : Z.

(** One iteration of [get_steepest_pointers], ongrid_numba.py lines 53-73 of the
    file: vacuum and maxima are skipped, other voxels point to their steepest
    neighbour. *)
Definition steepest_cell (data : arr3 Q) (nbs : list (offset * Q)) (vac : arr3 bool)
    (mx : arr3 bool) (idx : nat) : option Z :=
  let v := unflat ny nz (Z.of_nat idx) in
  if rd vac v then None
  else if rd mx v then None
  else Some (flat ny nz (snd (get_best_neighbor nx ny nz data v nbs))).

(** [get_steepest_pointers], ongrid_numba.py lines 11-75, with the [prange] loop
    run in the order [order]. *)
Definition get_steepest_pointers data nbs vac mx (order : list nat) (labels : list Z) : list Z :=
  par_loop (steepest_cell data nbs vac mx) order labels.

(** [OngridMethod._run_bader], ongrid_method.py lines 17-63, from the initial
    labels to the final flat label array. *)
Definition ongrid_labels data nbs vac mx num_vacuum (order : list nat) fuel (labels : list Z)
    : outcome (list Z) :=
  match get_roots num_vacuum fuel (get_steepest_pointers data nbs vac mx order labels) with
  | Done r => Done (compact r)
  | Raised => Raised
  | Running => Running
  end.
End Ongrid.
