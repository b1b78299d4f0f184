(** Periodic labelling of a mask, core/toolkit/grid.py lines 982-1076 ([Grid.label]).

    [scipy nx ny nz m] stands for [scipy.ndimage.label] of a box.  Python sets are sorted lists without
    repetitions; [early] is false when no structuring element is given (there is no early return then). *)
From Verif Require Import Base GridModel RootsModel UnionModel BadelfModel.
Local Open Scope Z_scope.

Section Glab.
Variables nx ny nz : Z.
Variable scipy : Z -> Z -> Z -> arr3 bool -> arr3 Z.

(** [np.unique] of an array of shape [(px, py, pz)]. *)
Definition unique3 (px py pz : Z) (a : arr3 Z) : list Z := np_unique (map (rd3 a) (voxels px py pz)).

(** Lines 1013 and 1017: [np.pad(labeled_array, 1, "wrap")]. *)
Definition pad_wrap (a : arr3 Z) : arr3 Z := fun i j k => a ((i - 1) mod nx) ((j - 1) mod ny) ((k - 1) mod nz).
Definition nonzero3 (a : arr3 Z) : arr3 bool := fun i j k => negb (a i j k =? 0).

(** Lines 1031-1035, for one super feature. *)
Fixpoint extend_all (cf : list Z) (js : list Z) (uc : list (list Z)) : outcome (list (list Z)) :=
  match js with
  | [] => Done uc
  | j :: t =>
      obind (oget (np_get uc j)) (fun old =>
      obind (oget (np_set uc j (np_unique (old ++ filter (fun k => negb (k =? j)) cf)))) (extend_all cf t))
  end.
Definition features_of (padded relabeled : arr3 Z) (i : Z) : list Z :=
  np_unique (map (rd3 padded) (filter (fun v => rd3 relabeled v =? i) (voxels (nx + 2) (ny + 2) (nz + 2)))).
(** Lines 1023-1035. *)
Fixpoint connect (padded relabeled : arr3 Z) (is_ : list Z) (uc : list (list Z)) : outcome (list (list Z)) :=
  match is_ with
  | [] => Done uc
  | i :: t => let cf := features_of padded relabeled i in obind (extend_all cf cf uc) (connect padded relabeled t)
  end.

(** Lines 1048-1056. *)
Fixpoint update_all (uc : list (list Z)) (js acc : list Z) : outcome (list Z) :=
  match js with
  | [] => Done acc
  | j :: t => obind (oget (np_get uc j)) (fun l => update_all uc t (np_unique (acc ++ l)))
  end.
Definition zlist_eqb (a b : list Z) : bool := if list_eq_dec Z.eq_dec a b then true else false.
Fixpoint grow (fuel : nat) (uc : list (list Z)) (connections new already : list Z) : outcome (list Z * list Z) :=
  match fuel with
  | O => Running
  | S f =>
      if zlist_eqb connections new then Done (new, already)
      else obind (update_all uc new new) (fun new' => grow f uc new new' (new ++ already))
  end.
(** Lines 1043-1060. *)
Fixpoint reduce (fuel : nat) (uc : list (list Z)) (is_ already : list Z) : outcome (list (list Z)) :=
  match is_ with
  | [] => Done []
  | i :: t =>
      if existsb (Z.eqb i) already then reduce fuel uc t already
      else obind (oget (np_get uc i)) (fun l =>
           obind (grow fuel uc [] (np_unique l) already) (fun '(c, already') =>
           obind (reduce fuel uc t already') (fun r => Done (match c with [] => r | _ => c :: r end))))
  end.

(** [np.where(a == x, y, a)]. *)
Definition where3 (x y : Z) (a : arr3 Z) : arr3 Z := fun i j k => if a i j k =? x then y else a i j k.
(** Lines 1064-1070. *)
Definition lower_class (a : arr3 Z) (c : list Z) : arr3 Z :=
  match np_unique c with [] => a | low :: t => fold_left (fun b h => where3 h low b) t a end.
(** Lines 1073-1074. *)
Fixpoint renumber (i : Z) (us : list Z) (a : arr3 Z) : arr3 Z :=
  match us with [] => a | j :: t => renumber (i + 1) t (where3 j i a) end.

Definition grid_label (fuel : nat) (early : bool) (input : arr3 bool) : outcome (arr3 Z) :=
  let labeled := scipy nx ny nz input in
  if early && Nat.eqb (length (unique3 nx ny nz labeled)) 1 then Done labeled
  else
    let padded := pad_wrap labeled in
    let relabeled := scipy (nx + 2) (ny + 2) (nz + 2) (nonzero3 padded) in
    let n := length (unique3 nx ny nz labeled) in
    obind (connect padded relabeled (unique3 (nx + 2) (ny + 2) (nz + 2) relabeled) (repeat [] n)) (fun uc =>
    obind (reduce fuel uc (map Z.of_nat (seq 0 n)) []) (fun reduced =>
    let lowered := fold_left lower_class reduced labeled in
    Done (renumber 0 (unique3 nx ny nz lowered) lowered))).
End Glab.
