(** [MethodBase.run] with the on-grid method, and the test of the value profile
    between two maxima. *)
From Verif Require Import Base GridModel NeighModel RootsModel UnionModel LabelsModel.

(** base.py lines 78-114 with ongrid_method.py: find the maxima (the [prange] loop in
    the order [order1]), merge them, run the on-grid method (order [order2]).
    [same] is the interpolation criterion of initialize_labels_from_maxima and
    [sorted] the result of its argsort.  Returns the flat labels and the list of
    representatives ([_maxima_vox], [_maxima_frac]) before the parabolic refinement
    of the coordinates (refine_maxima changes positions, not their order). *)
Definition ongrid_run (nx ny nz : Z) (data : arr3 Q) (nbs : list (offset * Q)) (vac : arr3 bool)
    (num_vacuum : Z) (same : list (Z * Z * Z) -> nat -> nat -> outcome bool) (sorted : list (Z * Z * Z) -> list nat)
    (order1 order2 : list nat) (fuel : nat) : outcome (list Z * list ((Z * Z * Z) * q3)) :=
  let mask := get_maxima nx ny nz data (map fst nbs) vac false order1 in
  let maxima := argwhere nx ny nz mask in
  obind (initialize_labels nx ny nz data nbs fuel mask maxima (same maxima) (sorted maxima))
    (fun '(L0, bs, mask') =>
  obind (ongrid_labels nx ny nz data nbs vac (reshape false mask' ny nz) num_vacuum order2 fuel L0)
    (fun lab => Done (lab, bs))).

(** shared_numba.py lines 437-465: do the interpolated values between two maxima
    have no minimum deeper than the relative tolerance?  Reads outside the array
    are undefined in numba and modelled as [Raised]. *)
Definition vat (vs : list Q) (i : nat) : Q := nth i vs 0%Q.

Definition inner_minima (vs : list Q) : list nat :=
  filter (fun m => Qltb (vat vs m) (vat vs (m - 1)) && Qle_bool (vat vs m) (vat vs (m + 1)))
         (seq 1 (length vs - 2)).
Definition inner_maxima (vs : list Q) : list nat :=
  filter (fun m => Qltb (vat vs (m - 1)) (vat vs m) && Qle_bool (vat vs (m + 1)) (vat vs m))
         (seq 1 (length vs - 2)).

Definition profile_maxima (vs : list Q) : list nat :=
  let n := length vs in
  let m1 := if Qle_bool (vat vs 1) (vat vs 0) then 0%nat :: inner_maxima vs else inner_maxima vs in
  if Qltb (vat vs (n - 2)) (vat vs (n - 1)) then m1 ++ [(n - 1)%nat] else m1.

Definition last_below (m : nat) (l : list nat) : option nat :=
  match rev (filter (fun x => Nat.ltb x m) l) with [] => None | x :: _ => Some x end.
Definition first_above (m : nat) (l : list nat) : option nat :=
  match filter (fun x => Nat.ltb m x) l with [] => None | x :: _ => Some x end.

Definition Qmax2 (a b : Q) : Q := if Qltb a b then b else a.

Fixpoint deep_minima (tol : Q) (vs : list Q) (mx : list nat) (ms : list nat) : outcome (list nat) :=
  match ms with
  | [] => Done []
  | m :: rest =>
      match last_below m mx, first_above m mx with
      | Some l, Some r =>
          let mv := Qmax2 (vat vs l) (vat vs r) in
          obind (deep_minima tol vs mx rest) (fun f =>
          Done (if Qltb tol ((mv - vat vs m) / mv) then m :: f else f))
      | _, _ => Raised
      end
  end.

Definition no_valley (tol : Q) (vs : list Q) : outcome bool :=
  if Nat.ltb (length vs) 2 then Raised
  else obind (deep_minima tol vs (profile_maxima vs) (inner_minima vs)) (fun f =>
       Done (match f with [] => true | _ => false end)).
