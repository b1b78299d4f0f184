(** The near-grid method: gradient pointers and the parallel refinement of edge voxels. *)
From Verif Require Import Base GridModel NeighModel RootsModel UnionModel LabelsModel.
From Coq Require Import Qround.

(** Python's and numba's [round]: to the nearest integer, ties to even. *)
Definition py_round (q : Q) : Z :=
  let f := Qfloor q in
  let r := (q - inject_Z f)%Q in
  if Qltb r (1 # 2) then f else if Qltb (1 # 2) r then f + 1 else if Z.even f then f else f + 1.

Definition round3 (g : q3) : offset := let '(a, b, c) := g in (py_round a, py_round b, py_round c).
Definition q3_add (a b : q3) : q3 := let '(x, y, z) := a in let '(x', y', z') := b in (x + x', y + y', z + z')%Q.
Definition q3_sub_int (a : q3) (s : offset) : q3 :=
  let '(x, y, z) := a in let '(i, j, k) := s in (x - inject_Z i, y - inject_Z j, z - inject_Z k)%Q.
Definition off_add (a b : offset) : offset := let '(x, y, z) := a in let '(x', y', z') := b in (x + x', y + y', z + z').

Section Near.
Variables nx ny nz : Z.

(** [get_gradient_simple], neargrid_numba.py lines 12-65.  [dir2lat] is given by its rows. *)
Definition get_gradient_simple (data : arr3 Q) (v : Z * Z * Z) (dir2lat : q3 * q3 * q3) : q3 :=
  let '(i, j, k) := v in
  let c000 := data i j k in
  let c001 := data i j ((k + 1) mod nz) in
  let c010 := data i ((j + 1) mod ny) k in
  let c100 := data ((i + 1) mod nx) j k in
  let c00_1 := data i j ((k - 1) mod nz) in
  let c0_10 := data i ((j - 1) mod ny) k in
  let c_100 := data ((i - 1) mod nx) j k in
  let gi := if Qle_bool c100 c000 && Qle_bool c_100 c000 then 0%Q else ((c100 - c_100) / 2)%Q in
  let gj := if Qle_bool c010 c000 && Qle_bool c0_10 c000 then 0%Q else ((c010 - c0_10) / 2)%Q in
  let gk := if Qle_bool c001 c000 && Qle_bool c00_1 c000 then 0%Q else ((c001 - c00_1) / 2)%Q in
  let '(((a00, a01, a02), (a10, a11, a12)), (a20, a21, a22)) := dir2lat in
  (a00 * gi + a01 * gj + a02 * gk, a10 * gi + a11 * gj + a12 * gk, a20 * gi + a21 * gj + a22 * gk)%Q.

Definition Qabs' (q : Q) : Q := if Qltb q 0 then (- q)%Q else q.
(** neargrid_numba.py lines 197-201. *)
Definition max_abs (g : q3) : Q :=
  let '(a, b, c) := g in
  fold_left (fun m x => if Qltb m (Qabs' x) then Qabs' x else m) [a; b; c] 0%Q.

Definition tiny : Q := 1 # (10 ^ 30).

(** One voxel of [get_gradient_pointers_simple] that is neither vacuum nor a maximum,
    lines 191-246: the stored gradient and the voxel pointed to.  [float32] rounding of
    the stored gradient is not modelled. *)
Definition near_voxel (data : arr3 Q) (nbs : list (offset * Q)) (dir2lat : q3 * q3 * q3) (v : Z * Z * Z) : q3 * (Z * Z * Z) :=
  let g := get_gradient_simple data v dir2lat in
  let m := max_abs g in
  if Qltb m tiny then
    let '(s, n) := get_best_neighbor nx ny nz data v nbs in
    let '(a, b, c) := s in ((inject_Z a, inject_Z b, inject_Z c), n)
  else
    let '(a, b, c) := g in
    let g' := (a / m, b / m, c / m)%Q in
    let n := step_to nx ny nz v (round3 g') in
    (g', if Qle_bool (rd data n) (rd data v) then snd (get_best_neighbor nx ny nz data v nbs) else n).

(** The label pointer written for voxel number [idx] and the array of gradients
    (initially zero; written by the same iteration). *)
Definition near_cell data nbs dir2lat (vac mx : arr3 bool) (idx : nat) : option Z :=
  let v := unflat ny nz (Z.of_nat idx) in
  if rd vac v then None else if rd mx v then None
  else Some (flat ny nz (snd (near_voxel data nbs dir2lat v))).
Definition near_gradients data nbs dir2lat (vac mx : arr3 bool) (v : Z * Z * Z) : q3 :=
  if rd vac v then (0, 0, 0)%Q else if rd mx v then (0, 0, 0)%Q else fst (near_voxel data nbs dir2lat v).
Definition get_gradient_pointers_simple data nbs dir2lat vac mx (order : list nat) (labels : list Z) : list Z :=
  par_loop (near_cell data nbs dir2lat vac mx) order labels.

(** ** refine_fast_neargrid, lines 376-513 *)
Variable data : arr3 Q.
Variable nbs : list (offset * Q).
Variable grad : Z * Z * Z -> q3.
Variable mx : arr3 bool.

(** Lines 470-498: the voxel the corrected gradient step leads to, and the remaining
    correction. *)
Definition near_target (pos : Z * Z * Z) (td : q3) : (Z * Z * Z) * q3 :=
  let g := grad pos in
  let p := round3 g in
  let td1 := q3_add td (q3_sub_int g p) in
  let r := round3 td1 in
  (step_to nx ny nz pos (off_add p r), q3_sub_int td1 r).

(** Lines 499-510: an on-grid step replaces it when it would return to the path or
    enter the vacuum ([zero]: the label read there is 0). *)
Definition climb_step (zero : bool) (pos : Z * Z * Z) (td : q3) (path : list Z) : (Z * Z * Z) * q3 :=
  let '(n, td') := near_target pos td in
  if existsb (Z.eqb (flat ny nz n)) path || zero
  then (snd (get_best_neighbor nx ny nz data pos nbs), (0, 0, 0)%Q)
  else (n, td').

(** The [prange] iterations run concurrently on the shared arrays [labels] and
    [refinement_mask]; every read and write of them is a separate atomic step.
    The scalar [reassignments] is a reduction: each thread keeps its own share. *)
Inductive rthread :=
| RStart (v : Z * Z * Z)                                               (* read labels[v] *)
| RClimb (v : Z * Z * Z) (lab : Z) (pos : Z * Z * Z) (td : q3) (path : list Z) (* test for a maximum, else read labels[n] *)
| RMask (v : Z * Z * Z) (lab : Z) (m : Z * Z * Z)                      (* refinement_mask[v] = False *)
| RRead (v : Z * Z * Z) (lab : Z) (m : Z * Z * Z)                      (* read labels[m] *)
| RNb (v : Z * Z * Z) (cur : Z) (todo : list offset)                   (* read labels[n] > 0 *)
| RSet (v : Z * Z * Z) (cur : Z) (n : Z * Z * Z) (todo : list offset)  (* refinement_mask[n] = True *)
| RAbs (v : Z * Z * Z) (cur : Z) (n : Z * Z * Z) (todo : list offset)  (* read labels[n] *)
| RNeg (v : Z * Z * Z) (cur : Z) (n : Z * Z * Z) (x : Z) (todo : list offset) (* labels[n] = -abs(x) *)
| RWrite (v : Z * Z * Z) (cur : Z) (changed : bool)                    (* labels[v] = -current_label *)
| RDone (changed : bool).

Definition vox_eqb (a b : Z * Z * Z) : bool :=
  let '(i, j, k) := a in let '(i', j', k') := b in (i =? i') && (j =? j') && (k =? k').
Definition put {A} (m : Z * Z * Z -> A) (v : Z * Z * Z) (x : A) : Z * Z * Z -> A :=
  fun u => if vox_eqb u v then x else m u.

Record memory := { m_lab : Z * Z * Z -> Z; m_mask : Z * Z * Z -> bool }.

Definition rstep (m : memory) (t : rthread) : memory * rthread :=
  match t with
  | RStart v => (m, RClimb v (Z.abs (m_lab m v)) v (0, 0, 0)%Q [])
  | RClimb v lab pos td path =>
      if rd mx pos then (m, RMask v lab pos)
      else let path' := flat ny nz pos :: path in
           let zero := m_lab m (fst (near_target pos td)) =? 0 in
           let '(n, td') := climb_step zero pos td path' in
           (m, RClimb v lab n td' path')
  | RMask v lab p => ({| m_lab := m_lab m; m_mask := put (m_mask m) v false |}, RRead v lab p)
  | RRead v lab p =>
      let cur := Z.abs (m_lab m p) in
      if lab =? cur then (m, RWrite v cur false) else (m, RNb v cur (map fst nbs))
  | RNb v cur [] => (m, RWrite v cur true)
  | RNb v cur (s :: todo) =>
      let n := step_to nx ny nz v s in
      if 0 <? m_lab m n then (m, RSet v cur n todo) else (m, RNb v cur todo)
  | RSet v cur n todo => ({| m_lab := m_lab m; m_mask := put (m_mask m) n true |}, RAbs v cur n todo)
  | RAbs v cur n todo => (m, RNeg v cur n (m_lab m n) todo)
  | RNeg v cur n x todo => ({| m_lab := put (m_lab m) n (- Z.abs x); m_mask := m_mask m |}, RNb v cur todo)
  | RWrite v cur changed => ({| m_lab := put (m_lab m) v (- cur); m_mask := m_mask m |}, RDone changed)
  | RDone changed => (m, RDone changed)
  end.

(** Thread number [t] takes a step. *)
Definition rsched (st : memory * list rthread) (t : nat) : memory * list rthread :=
  let '(m, ths) := st in
  match nth_error ths t with
  | None => st
  | Some th => let '(m', th') := rstep m th in (m', upd ths t th')
  end.
Definition run_threads (sched : list nat) (st : memory * list rthread) := fold_left rsched sched st.

Definition finished (t : rthread) : bool := match t with RDone _ => true | _ => false end.
Definition reassigned (t : rthread) : bool := match t with RDone c => c | _ => false end.

(** One pass: [np.argwhere(refinement_mask)], then all its voxels in parallel. *)
Definition refinement_indices (m : memory) : list (Z * Z * Z) := filter (m_mask m) (voxels nx ny nz).
Definition pass_threads (m : memory) (sched : list nat) : memory * list rthread :=
  run_threads sched (m, map RStart (refinement_indices m)).

(** The [while reassignments > 0] loop; [scheds] lists the interleaving of each pass.
    [None]: a pass was not run to completion, or the schedules ran out. *)
Fixpoint refine_loop (scheds : list (list nat)) (m : memory) : option memory :=
  match refinement_indices m with
  | [] => Some m
  | _ => match scheds with
         | [] => None
         | s :: rest =>
             let '(m', ths) := pass_threads m s in
             if forallb finished ths
             then if existsb reassigned ths then refine_loop rest m' else Some m'
             else None
         end
  end.
End Near.

(** [NeargridMethod._run_bader], neargrid_method.py lines 36-117, after the maxima have
    been labelled ([_use_overdetermined] False). *)
Definition near_refine nx ny nz data nbs dir2lat (vac mx : arr3 bool) (order2 order3 : list nat) (num_vacuum : Z) fuel scheds (L0 : list Z)
    : outcome (option (Z * Z * Z -> Z)) :=
  obind (get_roots num_vacuum fuel (get_gradient_pointers_simple nx ny nz data nbs dir2lat vac mx order2 L0)) (fun r =>
    let labels := fun v => nth (Z.to_nat (flat ny nz v)) (compact r) 0 + 1 in
    let edges := get_edges nx ny nz (fun i j k => labels (i, j, k)) (map fst nbs) vac order3 in
    let mask := fun v => nth (Z.to_nat (flat ny nz v)) edges false && negb (rd mx v) in
    let neg := fun v => if mask v then - labels v else labels v in
    Done (match refine_loop nx ny nz data nbs (near_gradients nx ny nz data nbs dir2lat vac mx) mx scheds
                  {| m_lab := neg; m_mask := mask |} with
          | Some m => Some (fun v => Z.abs (m_lab m v) - 1)
          | None => None
          end)).

(** [MethodBase.run] with the near-grid method. *)
Definition near_run (nx ny nz : Z) (data : arr3 Q) (nbs : list (offset * Q)) dir2lat (vac : arr3 bool)
    (num_vacuum : Z) (same : list (Z * Z * Z) -> nat -> nat -> outcome bool) (sorted : list (Z * Z * Z) -> list nat)
    (order1 order2 order3 : list nat) (fuel : nat) scheds : outcome (option (Z * Z * Z -> Z) * list ((Z * Z * Z) * q3)) :=
  let mask := get_maxima nx ny nz data (map fst nbs) vac false order1 in
  let maxima := argwhere nx ny nz mask in
  obind (initialize_labels nx ny nz data nbs fuel mask maxima (same maxima) (sorted maxima))
    (fun '(L0, bs, mask') =>
  obind (near_refine nx ny nz data nbs dir2lat vac (reshape false mask' ny nz) order2 order3 num_vacuum fuel scheds L0)
    (fun lab => Done (lab, bs))).
