(** The Voronoi facets of a grid point: [Grid.point_neighbor_voronoi_transforms], core/toolkit/grid.py lines 361-410.

    [voronoi] stands for [scipy.spatial.Voronoi]: the pairs of [ridge_points], each with the vertices its
    [ridge_vertices] name.  Coordinates are exact rationals.  [None] stands for an exception. *)
From Coq Require Import QArith.
From Verif Require Import Base GridModel ChargeModel NearModel CoordModel VaspModel TextModel.
Local Open Scope Z_scope.

(** Lines 386-396: [facet_area]. *)
Definition cross (a b : vec) : vec :=
  let '(a1, a2, a3) := a in let '(b1, b2, b3) := b in (a2 * b3 - a3 * b2, a3 * b1 - a1 * b3, a1 * b2 - a2 * b1)%Q.
Fixpoint fan (root : Q -> Q) (p0 : vec) (l : list vec) (area : Q) : Q :=
  match l with
  | p1 :: ((p2 :: _) as r) => fan root p0 r (area + root (norm2 (cross (vsub p1 p0) (vsub p2 p0))) / 2)%Q
  | _ => area
  end.
Definition facet_area (root : Q -> Q) (vertices : list vec) : option Q :=
  match vertices with [] => None | p0 :: l => Some (fan root p0 l 0%Q) end.

Record facet := Facet { f_shift : Z * Z * Z; f_dist : Q; f_area : Q; f_vertices : list vec }.
Section Facets.
Variables nx ny nz : Z.
Variable matrix : mat.
Variable root : Q -> Q.
Variable voronoi : list vec -> list ((nat * nat) * list vec).

(** Lines 378-380. *)
Definition reach : list Z := [-2; -1; 0; 1; 2].
Definition voxel_positions : list (Z * Z * Z) := list_prod (list_prod reach reach) reach.
Definition center : nat := (List.length voxel_positions / 2)%nat.
Definition cart_positions : list vec := grid_to_cart nx ny nz matrix (map qvec voxel_positions).
(** Lines 398-409, one ridge. *)
Definition of_ridge (r : (nat * nat) * list vec) : option facet :=
  let '((p, q), vertices) := r in
  match filter (fun i => negb (Nat.eqb i center)) [p; q] with
  | [] => None
  | neighbor :: _ =>
      obnd (facet_area root vertices) (fun area =>
      obnd (nth_error voxel_positions neighbor) (fun t =>
      obnd (nth_error cart_positions neighbor) (fun c => Some (Facet t (root (norm2 c)) area vertices))))
  end.
Definition has_center (r : (nat * nat) * list vec) : bool := let '((p, q), _) := r in Nat.eqb p center || Nat.eqb q center.
Definition point_neighbor_voronoi_transforms : option (list facet) := map_opt of_ridge (filter has_center (voronoi cart_positions)).
End Facets.
