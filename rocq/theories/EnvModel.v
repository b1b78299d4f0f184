(** Atoms around a point, core/utilities/coord_env.py.

    Coordinates are exact rationals; [root] is the square root ([** 0.5] and [norm]) and [arccos] the arc cosine.
    Parallel loops run in any order [order]. *)
From Coq Require Import QArith.
From Verif Require Import Base ChargeModel.
Local Open Scope Z_scope.

(** Lines 6-12. *)
Definition frac2cart_numba (m : mat) (i j k : Q) : vec :=
  let '((a1, a2, a3), (b1, b2, b3), (c1, c2, c3)) := m in
  ((i * a1 + j * b1 + k * c1)%Q, (i * a2 + j * b2 + k * c2)%Q, (i * a3 + j * b3 + k * c3)%Q).
(** The loops [for si in (-1, 0, 1): for sj in (-1, 0, 1): for sk in (-1, 0, 1)]. *)
Definition shifts : list (Z * Z * Z) :=
  flat_map (fun si => flat_map (fun sj => map (fun sk => (si, sj, sk)) [-1; 0; 1]) [-1; 0; 1]) [-1; 0; 1].
(** The Cartesian coordinates of the point moved by a shift. *)
Definition moved (m : mat) (f : vec) (s : Z * Z * Z) : vec :=
  let '(fi, fj, fk) := f in let '(si, sj, sk) := s in
  frac2cart_numba m (fi + inject_Z si)%Q (fj + inject_Z sj)%Q (fk + inject_Z sk)%Q.

(** ** get_atom_nearest_neighbors, lines 15-56.  An entry that is never written is [None]. *)
Definition nearest_entry := (Q * option (nat * (Z * Z * Z)))%type.
Definition zero_shift (s : Z * Z * Z) : bool := let '(si, sj, sk) := s in (si =? 0) && (sj =? 0) && (sk =? 0).
(** Lines 45-55. *)
Definition nearest_step (root : Q -> Q) (i : nat) (c : vec) (s : Z * Z * Z) (best : nearest_entry) (e : nat * vec) : nearest_entry :=
  let '(j, a) := e in
  if Nat.eqb j i && zero_shift s then best
  else
    let dist := root (norm2 (vsub a c)) in
    let '(si, sj, sk) := s in
    if Qltb dist (fst best) then (dist, Some (j, (- si, - sj, - sk))) else best.
(** Lines 29-55. *)
Definition nearest_atom (root : Q -> Q) (fracs carts : list vec) (m : mat) (i : nat) : option nearest_entry :=
  option_map
    (fun f => fold_left (fun best s => fold_left (nearest_step root i (moved m f s) s) (combine (seq 0 (length carts)) carts) best) shifts ((100 # 1)%Q, None))
    (nth_error fracs i).
Definition get_atom_nearest_neighbors (root : Q -> Q) (fracs carts : list vec) (m : mat) (order : list nat) : list nearest_entry :=
  par_loop (nearest_atom root fracs carts m) order (repeat ((100 # 1)%Q, None) (length fracs)).

(** ** get_dists_to_atoms, lines 59-104 *)
Definition far : Q := (1000000 # 1)%Q.
(** Lines 88-102. *)
Definition atom_dist (root : Q -> Q) (trans : list vec) (carts : list vec) (i : nat) : option Q :=
  option_map (fun a => fold_left (fun best c => let dist := root (norm2 (vsub a c)) in if Qle_bool dist best then dist else best) trans far) (nth_error carts i).
Definition get_dists_to_atoms (root : Q -> Q) (f : vec) (carts : list vec) (m : mat) (order : list nat) : list Q :=
  par_loop (atom_dist root (map (moved m f) shifts) carts) order (repeat far (length carts)).

(** ** check_covalent, lines 107-191 *)
(** Lines 118-127; [junk] is the content of the uninitialised vectors. *)
Record near3 := mkNear { d1 : Q; d2 : Q; d3 : Q; v1 : vec; v2 : vec; a1 : Z; a2 : Z }.
Definition near_init (junk : vec) : near3 := mkNear far far far junk junk (-1) (-1).
(** Lines 140-169. *)
Definition near_step (root : Q -> Q) (c : vec) (st : near3) (e : nat * vec) : near3 :=
  let '(i, a) := e in
  let v := vsub a c in
  let dist := root (norm2 v) in
  if Qle_bool dist (d1 st) then mkNear dist (d1 st) (d2 st) v (v1 st) (Z.of_nat i) (a1 st)
  else if Qle_bool dist (d2 st) then mkNear (d1 st) dist (d2 st) (v1 st) v (a1 st) (Z.of_nat i)
  else if Qltb dist (d3 st) then mkNear (d1 st) (d2 st) dist (v1 st) (v2 st) (a1 st) (a2 st)
  else st.
(** Lines 129-169. *)
Definition nearest3 (root : Q -> Q) (junk f : vec) (carts : list vec) (m : mat) : near3 :=
  fold_left (fun st s => fold_left (near_step root (moved m f s)) (combine (seq 0 (length carts)) carts) st) shifts (near_init junk).
Definition dot (a b : vec) : Q := let '(x, y, z) := a in let '(u, v, w) := b in (x * u + y * v + z * w)%Q.
Definition clip1 (c : Q) : Q := let c := if Qle_bool c 1 then c else 1%Q in if Qle_bool (-(1))%Q c then c else (-(1))%Q.
(** Lines 171-191; [None] is a ZeroDivisionError. *)
Definition check_covalent (root arccos : Q -> Q) (junk f : vec) (carts : list vec) (m : mat) (min_angle : Q) : option (bool * Z * Z) :=
  let st := nearest3 root junk f carts m in
  if Qeq_bool (d2 st) 0 then None
  else if Qltb ((d3 st - d2 st) / d2 st)%Q (1 # 100)%Q then Some (false, a1 st, a2 st)
  else
    let n := (root (norm2 (v1 st)) * root (norm2 (v2 st)))%Q in
    if Qeq_bool n 0 then None
    else
      let theta := arccos (clip1 (dot (v1 st) (v2 st) / n)%Q) in
      Some (negb (Qltb theta min_angle), a1 st, a2 st).
(** ** check_all_covalent, lines 194-216; neighbours are stored with 16 bits. *)
Definition check_all_covalent (root arccos : Q -> Q) (junk : vec) (fs : list vec) (carts : list vec) (m : mat) (min_angle : Q) (order : list nat) :
  option (list (bool * (Z * Z))) :=
  if forallb (fun f => match check_covalent root arccos junk f carts m min_angle with Some _ => true | None => false end) fs
  then Some (par_loop (fun i => match nth_error fs i with
                                | Some f => option_map (fun '(c, x, y) => (c, (x mod 65536, y mod 65536))) (check_covalent root arccos junk f carts m min_angle)
                                | None => None
                                end) order (repeat (false, (0, 0)) (length fs)))
  else None.
