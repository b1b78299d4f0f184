(** BadELF voxel assignment, core/badelf/badelf_numba.py lines 10-104
    ([get_in_partition_assignments]), 107-276 ([get_outside_partition_assignments]), 279-322
    ([get_badelf_assignments]), and the preparation of the labels, badelf.py lines 492-512.

    Arrays over the grid are functions of the voxel; data and positions are exact rationals.
    The two parallel loops read the labels they were given: iterations of the first write the voxel
    they own, iterations of the second their own row of the result.  An index outside an array
    raises (numba does not check it). *)
From Coq Require Import QArith.
From Verif Require Import Base GridModel RootsModel UnionModel ChargeModel CoordModel NearModel WeightModel RefineModel PlaneModel.
Local Open Scope Z_scope.

Definition voxel := (Z * Z * Z)%type.
Definition rd3 {A} (f : arr3 A) (v : voxel) : A := let '(i, j, k) := v in f i j k.
Definition set3 {A} (f : arr3 A) (v : voxel) (x : A) : arr3 A :=
  fun i j k => let '(a, b, c) := v in if (i =? a) && (j =? b) && (k =? c) then x else f i j k.

(** [a[i] += x]. *)
Definition np_add (l : list Q) (i : Z) (x : Q) : outcome (list Q) :=
  obind (oget (np_get l i)) (fun y => oget (np_set l i (y + x)%Q)).

Record part := Part { pt_site : Z; pt_trans : Z; pt_eqn : Q * Q * Q * Q }.

(** badelf.py lines 432-442 for one plane; [root] is the square root. *)
Definition plane_eqn (root : Q -> Q) (m : mat) (w : wrapped) : Q * Q * Q * Q :=
  let '(a, b, c) := vmat (w_vector w) m in
  let n := root (norm2 (a, b, c)) in
  let u := ((a / n)%Q, (b / n)%Q, (c / n)%Q) in
  (u, (- vdot u (vmat (w_point w) m))%Q).

(** Lines 424-444: [perm] is the result of [np.lexsort].  The sites stay in their old order. *)
Definition no_plane : wrapped := Wrapped 0 0 (0, 0, 0)%Q (0, 0, 0)%Q 0%Q.
Definition order_planes (root : Q -> Q) (m : mat) (perm : list nat) (ws : list wrapped) : list part :=
  map (fun '(w, i) => let x := nth i ws no_plane in Part (Z.of_nat (w_site w)) (Z.of_nat (w_trans x)) (plane_eqn root m x))
      (combine ws perm).

(** Lines 49-93 for one voxel at [p]: the site found, if any. *)
Fixpoint in_site (mind : Q) (p : vec) (l : list part) (site trans : Z) (assigned : bool) : option Z :=
  match l with
  | [] => if assigned then Some site else None
  | x :: t =>
      let test := negb (Qltb (- mind) (plane_dist p (pt_eqn x))) in
      if negb (pt_site x =? site) || negb (pt_trans x =? trans)
      then if assigned then Some site
           else in_site mind p t (pt_site x) (pt_trans x) test
      else if negb assigned then in_site mind p t site trans assigned
           else in_site mind p t site trans test
  end.

(** Lines 25-28 and 76-78. *)
Definition grid_cart (nx ny nz : Z) (m : mat) (v : voxel) : vec :=
  let '((a1, a2, a3), (b1, b2, b3), (c1, c2, c3)) := m in
  let '(i, j, k) := v in
  let x := inject_Z nx in let y := inject_Z ny in let z := inject_Z nz in
  let i := inject_Z i in let j := inject_Z j in let k := inject_Z k in
  (i * (a1 / x) + j * (b1 / y) + k * (c1 / z),
   i * (a2 / x) + j * (b2 / y) + k * (c2 / z),
   i * (a3 / x) + j * (b3 / y) + k * (c3 / z))%Q.

(** Lines 41-93. *)
Definition in_labels (nx ny nz : Z) (m : mat) (planes : list part) (mind : Q) (vacuum : arr3 bool) (labels : arr3 Z) : arr3 Z :=
  fun i j k =>
    if negb (labels i j k =? -1) || vacuum i j k then labels i j k
    else match in_site mind (grid_cart nx ny nz m (i, j, k)) planes (-1) (-1) false with
         | Some s => s | None => labels i j k end.

(** Lines 96-103. *)
Fixpoint in_totals (data : arr3 Q) (labels : arr3 Z) (l : list voxel) (ch vo : list Q) : outcome (list Q * list Q) :=
  match l with
  | [] => Done (ch, vo)
  | v :: t =>
      if rd3 labels v =? -1 then in_totals data labels t ch vo
      else obind (np_add ch (rd3 labels v) (rd3 data v)) (fun ch1 =>
           obind (np_add vo (rd3 labels v) 1%Q) (fun vo1 => in_totals data labels t ch1 vo1))
  end.

Definition in_partition nx ny nz (data : arr3 Q) (labels : arr3 Z) (planes : list part) (vacuum : arr3 bool)
    (mind : Q) (num : nat) (m : mat) : outcome (arr3 Z * list Q * list Q) :=
  let out := in_labels nx ny nz m planes mind vacuum labels in
  obind (in_totals data out (voxels nx ny nz) (repeat 0%Q num) (repeat 0%Q num)) (fun '(ch, vo) => Done (out, ch, vo)).

(** ** Voxels outside *)
Section Outside.
Variables nx ny nz : Z.
Variable max_label : nat.
Variable argsort : list Q -> list nat.

(** State of one search: [site_counts], [found_sites], [total_counts], [found]. *)
Record search := Search { s_counts : list Q; s_sites : list Z; s_total : Q; s_found : bool }.

(** Lines 146-158. *)
Definition look (labels : arr3 Z) (v : voxel) (st : search) (d : voxel * Q) : search :=
  let '(i, j, k) := v in let '((si, sj, sk), dist) := d in
  let label := labels ((i + si) mod nx) ((j + sj) mod ny) ((k + sk) mod nz) in
  if negb (label =? -1) && (label <? Z.of_nat max_label)
  then let portion := (1 / dist)%Q in
       Search (add_at (s_counts st) (Z.to_nat label) portion)
              (if Qeq_bool (nth (Z.to_nat label) (s_counts st) 0%Q) 0 then s_sites st ++ [label] else s_sites st)
              (s_total st + portion)%Q true
  else st.

(** Lines 163-177: at most ten sites are stored. *)
Definition condense (st : search) : list (Z * Q) :=
  let reduced := map (fun s => nth (Z.to_nat s) (s_counts st) 0%Q) (s_sites st) in
  if Nat.ltb 10 (length reduced)
  then let sel := firstn 10 (argsort reduced) in
       let kept := map (fun i => nth i reduced 0%Q) sel in
       let total := qsum kept in
       combine (map (fun i => nth i (s_sites st) 0) sel) (map (fun c => (c / total)%Q) kept)
  else combine (s_sites st) (map (fun c => (c / s_total st)%Q) reduced).

(** Lines 139-187: [breaks] starts with the current break; the empty list is never reached here. *)
Fixpoint gather (labels : arr3 Z) (v : voxel) (trans : list (voxel * Q)) (idx : nat) (breaks : list nat) (st : search) : list (Z * Q) :=
  match trans, breaks with
  | d :: t, b :: bs =>
      let st1 := look labels v st d in
      if Nat.eqb idx b
      then if s_found st1 then condense st1
           else match bs with [] => [] | _ => gather labels v t (S idx) bs st1 end
      else gather labels v t (S idx) breaks st1
  | _, _ => []
  end.

Definition search0 : search := Search (repeat 0%Q max_label) [] 0%Q false.

(** Lines 121-187.  The rows of the result; [transform_breaks[0]] must exist. *)
Definition gather_all (labels : arr3 Z) (vacuum : arr3 bool) (trans : list (voxel * Q)) (breaks : list nat)
    : outcome (list (voxel * list (Z * Q))) :=
  let points := filter (fun v => (rd3 labels v =? -1) && negb (rd3 vacuum v)) (voxels nx ny nz) in
  match points, breaks with
  | [], _ => Done []
  | _, [] => Raised
  | _, _ => Done (map (fun v => (v, gather labels v trans 0 breaks search0)) points)
  end.

(** [for site, frac in zip(sites, fracs)] stops at the first zero fraction. *)
Fixpoint used (row : list (Z * Q)) : list (Z * Q) :=
  match row with
  | [] => []
  | (s, f) :: t => if Qeq_bool f 0 then [] else (s, f) :: used t
  end.

Definition tol : Q := 1 # 1000000.

(** Lines 200-214. *)
Fixpoint best_of (row : list (Z * Q)) (bf : Q) (bs : Z) (tie : bool) : Z * bool :=
  match row with
  | [] => (bs, tie)
  | (s, f) :: t => if Qltb (bf + tol) f then best_of t f s false
                   else if Qltb (bf - tol) f then best_of t bf bs true
                   else best_of t bf bs tie
  end.

(** Lines 221-226 and 243-248. *)
Fixpoint give (row : list (Z * Q)) (charge : Q) (ch vo : list Q) : outcome (list Q * list Q) :=
  match row with
  | [] => Done (ch, vo)
  | (s, f) :: t => obind (np_add ch s (charge * f)%Q) (fun ch1 => obind (np_add vo s f) (fun vo1 => give t charge ch1 vo1))
  end.

Record acc := Acc { a_labels : arr3 Z; a_ch : list Q; a_vo : list Q; a_approx : list Q }.

(** Lines 194-231; the second component collects the tied points. *)
Fixpoint first_pass (data : arr3 Q) (l : list (voxel * list (Z * Q))) (st : acc) (ties : list (voxel * list (Z * Q)))
    : outcome (acc * list (voxel * list (Z * Q))) :=
  match l with
  | [] => Done (st, ties)
  | (v, row) :: t =>
      let charge := rd3 data v in
      let '(site, tie) := best_of (used row) 0 (-1) false in
      if tie then first_pass data t st (ties ++ [(v, row)])
      else obind (np_add (a_approx st) site charge) (fun ap =>
           obind (give (used row) charge (a_ch st) (a_vo st)) (fun '(ch, vo) =>
           first_pass data t (Acc (set3 (a_labels st) v site) ch vo ap) ties))
  end.

(** Lines 255-272.  Dividing by a zero charge raises. *)
Fixpoint improve (row : list (Z * Q)) (charge : Q) (ch ap : list Q) (best : Q) (site : Z) : outcome Z :=
  match row with
  | [] => Done site
  | (s, f) :: t =>
      if Qltb f (0 - tol) then improve t charge ch ap best site
      else obind (oget (np_get ap s)) (fun a => obind (oget (np_get ch s)) (fun c =>
           let diff := (a - c)%Q in
           if Qeq_bool c 0 then Raised
           else let imp := ((qabs diff - qabs (diff + charge)) / c)%Q in
                if Qltb best imp then improve t charge ch ap imp s else improve t charge ch ap best site))
  end.

(** Lines 237-274: [cur] is the pair [sites, fracs], still that of the previous point when the charge
    is given away. *)
Fixpoint second_pass (data : arr3 Q) (order : list (voxel * list (Z * Q))) (cur : list (Z * Q)) (st : acc) : outcome acc :=
  match order with
  | [] => Done st
  | (v, row) :: t =>
      let charge := rd3 data v in
      obind (give (used cur) charge (a_ch st) (a_vo st)) (fun '(ch, vo) =>
      obind (improve (used row) charge ch (a_approx st) (-1) (-1)) (fun site =>
      obind (np_add (a_approx st) site charge) (fun ap =>
      second_pass data t row (Acc (set3 (a_labels st) v site) ch vo ap))))
  end.

(** Lines 119-276. *)
Definition outside (data : arr3 Q) (labels : arr3 Z) (vacuum : arr3 bool) (trans : list (voxel * Q)) (breaks : list nat)
    (ch vo : list Q) : outcome (arr3 Z * list Q * list Q) :=
  obind (gather_all labels vacuum trans breaks) (fun rows =>
  obind (first_pass data rows (Acc labels ch vo ch) []) (fun '(st, ties) =>
  let order := map (fun i => nth i ties ((0, 0, 0), [])) (rev (argsort (map (fun '(v, _) => rd3 data v) ties))) in
  obind (second_pass data order (snd (last rows ((0, 0, 0), []))) st) (fun st =>
  Done (a_labels st, a_ch st, a_vo st)))).
End Outside.

(** badelf.py lines 492-512: the labels handed over and [max_label]. *)
Inductive method := MBadelf | MVoronelf.
Definition prepare (m : method) (natoms nelectride_structure : nat) (labels : arr3 Z) : arr3 Z * nat :=
  match m with
  | MBadelf => (fun i j k => if (Z.of_nat natoms <=? labels i j k) && (labels i j k <? Z.of_nat nelectride_structure) then labels i j k else -1, natoms)
  | MVoronelf => (labels, nelectride_structure)
  end.

(** Lines 296-322. *)
Definition get_badelf_assignments nx ny nz argsort (data : arr3 Q) (labels : arr3 Z) planes vacuum mind num m trans breaks max_label :=
  obind (in_partition nx ny nz data labels planes vacuum mind num m) (fun '(labels, ch, vo) =>
  outside nx ny nz max_label argsort data labels vacuum trans breaks ch vo).
