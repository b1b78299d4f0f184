(** [initialize_labels_from_maxima], bader/methods/shared_numba.py lines 242-542:
    merging of maxima before any Bader method runs. *)
From Verif Require Import Base GridModel NeighModel RootsModel UnionModel.

(** Python's [round] to an integer (half to even) on exact numbers. *)
Definition qfloor (q : Q) : Z := Qnum q / Z.pos (Qden q).
Definition qround (q : Q) : Z :=
  let f := qfloor q in
  let r := (q - inject_Z f)%Q in
  if Qltb r (1#2) then f
  else if Qltb (1#2) r then f + 1
  else if Z.even f then f else f + 1.

Definition q3 := (Q * Q * Q)%type.

(** [x % 1.0]. *)
Definition qmod1 (q : Q) : Q := (q - inject_Z (qfloor q))%Q.

Definition unwrap1 (c r : Q) : Q := (c - inject_Z (qround (c - r)))%Q.

(** [merge_frac_coords_weighted], utilities/basic.py lines 158-196.  The weights
    are normalised by the sum of ALL values; [zip] pairs them with the coordinates
    in order. *)
Definition merge_frac_coords_weighted (coords : list q3) (values : list Q) : q3 :=
  let tot := qsum values in
  let ws := map (fun v => v / tot)%Q values in
  match coords with
  | [] => (0, 0, 0)%Q
  | (r0, r1, r2) :: _ =>
      let '(t0, t1, t2) :=
        fold_left (fun (acc : q3) (cw : q3 * Q) =>
          let '(t0, t1, t2) := acc in let '((c0, c1, c2), w) := cw in
          (t0 + unwrap1 c0 r0 * w, t1 + unwrap1 c1 r1 * w, t2 + unwrap1 c2 r2 * w)%Q)
          (combine coords ws) (0, 0, 0)%Q in
      (qmod1 t0, qmod1 t1, qmod1 t2)
  end.

Section Labels.
Variables nx ny nz : Z.
Variable data : arr3 Q.
Variable nbs : list (offset * Q).

Notation vox := (Z * Z * Z)%type.
Notation ts := (map fst nbs).

Definition vx_flat (v : vox) : Z := flat ny nz v.
Definition vx_of (l : Z) : vox := unflat ny nz l.
Definition mget (mask : list bool) (v : vox) : bool := nth (Z.to_nat (vx_flat v)) mask false.
Definition mset (mask : list bool) (v : vox) (b : bool) : list bool := upd mask (Z.to_nat (vx_flat v)) b.

(** Lines 257-273: -1 everywhere except maxima, which are their own root. *)
Definition init_labels (maxima : list vox) : list Z :=
  fold_left (fun L v => upd L (Z.to_nat (vx_flat v)) (vx_flat v)) maxima
            (repeat (-1) (Z.to_nat (nx * ny * nz))).

(** Lines 298-304: the first neighbour that is not lower and not (still) a maximum. *)
Fixpoint first_flat (mask : list bool) (v : vox) (l : list offset) : option vox :=
  match l with
  | [] => None
  | s :: rest =>
      let t := step_to nx ny nz v s in
      if Qltb (rd data t) (rd data v) || mget mask t then first_flat mask v rest else Some t
  end.

Fixpoint lookup_flat (l : Z) (flats : list (Z * Z)) : option Z :=
  match flats with
  | [] => None
  | (a, b) :: rest => if a =? l then Some b else lookup_flat l rest
  end.

(** Lines 291-322, one maximum.  [flats] is [zip(flat_maxima_labels, best_neigh)];
    [flat_maxima_mask] is the set of its first components. *)
Definition reduce_one (st : list bool * list (Z * Z)) (v : vox) : list bool * list (Z * Z) :=
  let '(mask, flats) := st in
  if mget mask v then
    match first_flat mask v ts with
    | None => st
    | Some t =>
        (mset mask v false,
         flats ++ [(vx_flat v, match lookup_flat (vx_flat t) flats with
                               | Some b => b | None => vx_flat t end)])
    end
  else st.

(** Lines 290-327. *)
Fixpoint reduce_loop (fuel : nat) (maxima : list vox) (st : list bool * list (Z * Z)) (num : nat)
    : outcome (list bool * list (Z * Z)) :=
  match fuel with
  | O => Running
  | S fuel' =>
      let st' := fold_left reduce_one maxima st in
      if Nat.eqb (length (snd st')) num then Done st'
      else reduce_loop fuel' maxima st' (length (snd st'))
  end.

Definition vx_eqb (a b : vox) : bool :=
  let '(a1, a2, a3) := a in let '(b1, b2, b3) := b in (a1 =? b1) && (a2 =? b2) && (a3 =? b3).

(** Lines 333-353: climb from a neighbour of a false maximum to a maximum. *)
Fixpoint hill (fuel : nat) (mask : list bool) (flats : list (Z * Z)) (v : vox) : outcome vox :=
  match fuel with
  | O => Running
  | S fuel' =>
      let n := snd (get_best_neighbor nx ny nz data v nbs) in
      if mget mask n then Done n
      else
        let n' := if vx_eqb v n
                  then match lookup_flat (vx_flat n) flats with Some b => vx_of b | None => n end
                  else n in
        hill fuel' mask flats n'
  end.

(** A sequence of [union(labels, a, b)] calls. *)
Fixpoint run_unions (fuel : nat) (req : list (Z * Z)) (p : list Z) : outcome (list Z) :=
  match req with
  | [] => Done p
  | (a, b) :: t => obind (union fuel p a b) (run_unions fuel t)
  end.

(** Lines 329-360: the unions of all false maxima that share the neighbour [u]. *)
Fixpoint merge_flats (fuel : nat) (mask : list bool) (flats : list (Z * Z)) (us : list Z) (p : list Z)
    : outcome (list Z) :=
  match us with
  | [] => Done p
  | u :: rest =>
      obind (hill fuel mask flats (vx_of u)) (fun m =>
      obind (run_unions fuel (map (fun lb : Z * Z => (fst lb, vx_flat m))
                               (filter (fun lb : Z * Z => snd lb =? u) flats)) p) (fun p' =>
      merge_flats fuel mask flats rest p'))
  end.

(** Lines 362-365. *)
Definition restore (mask : list bool) (flats : list (Z * Z)) : list bool :=
  fold_left (fun m (lb : Z * Z) => mset m (vx_of (fst lb)) true) flats mask.

(** Lines 372-379: requested unions of adjacent maxima. *)
Definition adjacent_requests (mask : list bool) (maxima : list vox) : list (Z * Z) :=
  flat_map (fun v => map (fun t => (vx_flat v, vx_flat t))
                         (filter (mget mask) (map (step_to nx ny nz v) ts))) maxima.

(** Lines 393-470.  [same a b] is the outcome of lines 412-465 for the maxima number
    [a] and [b]: within the distance cut-off and without an intermediate minimum
    (it may raise).  [sorted] is [np.flip(np.argsort(maxima_values))]. *)
Fixpoint interp_partner (same : nat -> nat -> outcome bool) (maxima : list vox) (a : nat)
    (va : Q) (l : list nat) : outcome (option nat) :=
  match l with
  | [] => Done None
  | b :: rest =>
      if Nat.eqb b a then interp_partner same maxima a va rest
      else if Qltb (rd data (nth b maxima (0, 0, 0))) va then Done None
      else obind (same a b) (fun r =>
           if r then Done (Some b) else interp_partner same maxima a va rest)
  end.

Fixpoint interp_requests (same : nat -> nat -> outcome bool) (flats : list (Z * Z))
    (maxima : list vox) (sorted l : list nat) : outcome (list (Z * Z)) :=
  match l with
  | [] => Done []
  | a :: rest =>
      let va := nth a maxima (0, 0, 0) in
      if match lookup_flat (vx_flat va) flats with Some _ => true | None => false end
      then interp_requests same flats maxima sorted rest
      else obind (interp_partner same maxima a (rd data va) sorted) (fun o =>
           obind (interp_requests same flats maxima sorted rest) (fun req =>
           Done (match o with
                 | Some b => (vx_flat va, vx_flat (nth b maxima (0, 0, 0))) :: req
                 | None => req end)))
  end.

Fixpoint all_done {A} (l : list (outcome A)) : outcome (list A) :=
  match l with
  | [] => Done []
  | o :: t => obind o (fun a => obind (all_done t) (fun r => Done (a :: r)))
  end.

Definition frac_of (v : vox) : q3 :=
  let '(i, j, k) := v in
  (inject_Z i / inject_Z nx, inject_Z j / inject_Z ny, inject_Z k / inject_Z nz)%Q.

(** Lines 494-512: the highest member so far, starting from -1e300. *)
Definition low_start : Q := inject_Z (- 10 ^ 300).
Definition highest_step (st : Q * vox) (v : vox) : Q * vox :=
  if Qltb (fst st) (rd data v) then (rd data v, v) else st.
Definition highest (members : list vox) : Q * vox :=
  fold_left highest_step members (low_start, (-1, -1, -1)).

(** Lines 490-538, one group: the representative voxel and its fractional
    coordinates. *)
Definition represent (flats : list (Z * Z)) (members : list vox) : vox * q3 :=
  let true_members := filter (fun v => match lookup_flat (vx_flat v) flats with Some _ => false | None => true end) members in
  let merged := merge_frac_coords_weighted (map frac_of true_members) (map (fun v => rd data v) members) in
  let '(hv, h) := highest members in
  let '(m0, m1, m2) := merged in
  let c := (qround (m0 * inject_Z nx) mod nx, qround (m1 * inject_Z ny) mod ny, qround (m2 * inject_Z nz) mod nz) in
  if negb (existsb (fun v => vx_flat v =? vx_flat c) members) || Qltb (rd data c) hv
  then (h, frac_of h) else (c, merged).

(** Lines 489-540: relabel every group. *)
Fixpoint regroup (flats : list (Z * Z)) (maxima : list vox) (roots : list Z) (us : list Z) (p : list Z)
    : list Z * list (vox * q3) :=
  match us with
  | [] => (p, [])
  | u :: rest =>
      let members := map fst (filter (fun mr : vox * Z => snd mr =? u) (combine maxima roots)) in
      let b := represent flats members in
      let p' := fold_left (fun L v => upd L (Z.to_nat (vx_flat v)) (vx_flat (fst b))) members p in
      let '(pf, bs) := regroup flats maxima roots rest p' in (pf, b :: bs)
  end.

(** The whole function.  [mask] is [maxima_mask], [maxima] is [maxima_vox]. *)
Definition initialize_labels (fuel : nat) (mask : list bool) (maxima : list vox)
    (same : nat -> nat -> outcome bool) (sorted : list nat)
    : outcome (list Z * list (vox * q3) * list bool) :=
  let L0 := init_labels maxima in
  obind (reduce_loop fuel maxima (mask, []) 0) (fun '(mask1, flats) =>
  obind (merge_flats fuel mask1 flats (np_unique (map snd flats)) L0) (fun L1 =>
  let mask2 := restore mask1 flats in
  obind (run_unions fuel (adjacent_requests mask2 maxima) L1) (fun L2 =>
  obind (interp_requests same flats maxima sorted (tl sorted)) (fun req =>
  obind (run_unions fuel req L2) (fun L3 =>
  obind (all_done (map (fun v => find_root_nc fuel L3 (vx_flat v)) maxima)) (fun roots =>
  let '(L4, bs) := regroup flats maxima roots (np_unique roots) L3 in
  Done (L4, bs, mask2))))))).
End Labels.
