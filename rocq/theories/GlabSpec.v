(** Specifications for [GlabModel]. *)
From Verif Require Import Base GridModel RootsModel BadelfModel DimSpec GlabModel.
Local Open Scope Z_scope.

(** Walks through allowed voxels along a relation of neighbourhood. *)
Inductive chain (adj : voxel -> voxel -> Prop) (ok : voxel -> Prop) : voxel -> voxel -> Prop :=
| chain_refl v : ok v -> chain adj ok v v
| chain_step a b c : ok a -> adj a b -> chain adj ok b c -> chain adj ok a c.

(** The neighbourhoods of [scipy.ndimage.label]: all 26 neighbours ([touching]), or those sharing a face. *)
Definition sharing_face (a b : voxel) : Prop :=
  let '(x, y, z) := a in let '(x', y', z') := b in Z.abs (x - x') + Z.abs (y - y') + Z.abs (z - z') <= 1.

Definition moved (v t : voxel) : voxel := let '(i, j, k) := v in let '(a, b, c) := t in (i + a, j + b, k + c).
Definition neighbourhood (adj : voxel -> voxel -> Prop) : Prop :=
  (forall a b, adj a b -> adj b a) /\ (forall a b t, adj a b -> adj (moved a t) (moved b t)) /\ (forall a b, adj a b -> touching a b).

(** What [scipy.ndimage.label] promises: features are numbered from one. *)
Definition features_ok (adj : voxel -> voxel -> Prop) (px py pz : Z) (m : arr3 bool) (l : arr3 Z) : Prop :=
  (forall v, in_box px py pz v -> (rd3 l v = 0 <-> rd3 m v = false)) /\
  (forall a b, set_in px py pz m a -> set_in px py pz m b -> (rd3 l a = rd3 l b <-> chain adj (set_in px py pz m) a b)) /\
  (exists n, 0 <= n /\ forall x, 1 <= x <= n <-> exists v, set_in px py pz m v /\ rd3 l v = x).
Definition scipy_ok (adj : voxel -> voxel -> Prop) (scipy : Z -> Z -> Z -> arr3 bool -> arr3 Z) : Prop :=
  forall px py pz m, 0 < px -> 0 < py -> 0 < pz -> features_ok adj px py pz m (scipy px py pz m).

(** Neighbours through the faces of the cell. *)
Definition wrapped_adj (adj : voxel -> voxel -> Prop) (nx ny nz : Z) (a b : voxel) : Prop := exists t, adj a (image nx ny nz b t).
