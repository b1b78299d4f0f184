(** Property theorems C09, C10, C53. *)
From Verif Require Import Base GridModel NeighModel RootsModel RootsSpec RootsProofs
  UnionModel UnionSpec UnionProofs CompressModel CompressProofs ShiftModel ShiftSpec ShiftProofs.

(** ** C09 *)
Theorem C09_history : forall n ops fuel, (n <= fuel)%nat -> Forall (op_below n) ops ->
  exists p, run_plain fuel ops (identity n) = Done p /\ length p = n /\
  forall i j, (i < n)%nat -> (j < n)%nat ->
    exists ri rj, find_root_nc fuel p (Z.of_nat i) = Done (Z.of_nat ri) /\
      find_root_nc fuel p (Z.of_nat j) = Done (Z.of_nat rj) /\
      (exists p', find_root fuel p (Z.of_nat i) = Done (p', Z.of_nat ri) /\ same_forest p p') /\
      (ri = rj <-> connected (pairs ops) i j) /\ connected (pairs ops) i ri.
Proof. exact union_find_history. Qed.
Print Assumptions C09_history.

Theorem C09_root_mask_history : forall n req fuel, (n <= fuel)%nat ->
  (forall x y, In (x, y) req -> (x < n)%nat /\ (y < n)%nat) ->
  exists p m, run_mask fuel req (identity n) (repeat false n) = Done (p, m) /\ length m = n /\
  (forall i, (i < n)%nat -> nth i m false = true <->
     find_root_nc fuel p (Z.of_nat i) = Done (Z.of_nat i) /\ mentioned req i) /\
  (forall e, mentioned req e -> exists r, find_root_nc fuel p (Z.of_nat e) = Done (Z.of_nat r) /\
     nth r m false = true /\ connected req e r) /\
  (forall i j, (i < n)%nat -> (j < n)%nat -> nth i m false = true -> nth j m false = true ->
     connected req i j -> i = j).
Proof. exact union_w_roots_history. Qed.
Print Assumptions C09_root_mask_history.

(** The [UnionFind] object: a history of calls (finds only on known elements)
    followed by [groups], whose inner loop runs in any order. *)
Theorem C09_object_groups : forall fuel ops order, (final_size 1 ops <= fuel)%nat -> finds_known 1 ops ->
  (forall i, In i order <-> (i < final_size 1 ops)%nat) ->
  exists q gs, run_uf fuel ops uf_init = Done q /\ length q = final_size 1 ops /\
  uf_groups fuel order q = Done gs /\
  (forall g, In g gs -> exists i, In i g) /\
  (forall i, (i < final_size 1 ops)%nat -> exists g, In g gs /\ In i g) /\
  (forall g i, In g gs -> In i g -> forall j, In j g <-> (j < final_size 1 ops)%nat /\ connected (pairs ops) i j).
Proof. exact uf_object_history. Qed.
Print Assumptions C09_object_groups.

(** Finding: asking for an element that no union mentioned raises IndexError,
    after any history. *)
Theorem C09_unseen_find_raises : forall fuel ops q x,
  run_uf fuel ops uf_init = Done q -> (length q <= x)%nat -> uf_find (S fuel) q x = Raised.
Proof. exact unseen_find_raises. Qed.
Print Assumptions C09_unseen_find_raises.

Example C09_ex :
  run_plain 9 [OpUnion 1 2; OpUnion 3 4; OpUnion 2 4; OpFind 1] (identity 6) = Done [0; 4; 4; 4; 4; 5].
Proof. reflexivity. Qed.
Example C09_ex_mask : exists p,
  run_mask 9 [(1, 2); (3, 4); (2, 4)]%nat (identity 6) (repeat false 6)
    = Done (p, [false; false; false; false; true; false]).
Proof. eexists. reflexivity. Qed.
Example C09_ex_groups :
  obind (run_uf 9 [OpUnion 1 4; OpUnion 4 2; OpFind 1] uf_init) (uf_groups 9 [4; 2; 0; 1; 3]%nat)
    = Done [[0]; [1; 2; 4]; [3]]%nat.
Proof. reflexivity. Qed.

(** ** C10 *)
Theorem C10_shift_history : forall n ops fuel, (n <= fuel)%nat -> Forall (s_below n) ops ->
  exists f A, run_shift fuel ops (shift_init n) = Done f /\
    incl A (requests ops) /\
    (forall x y, connected (map fst A) x y <-> connected (map fst (requests ops)) x y) /\
    forall i j, (i < n)%nat -> (j < n)%nat -> exists ri ci rj cj,
      find_root_with_shift_nc fuel (f_par f) (f_off f) (Z.of_nat i) = Done (Z.of_nat ri, ci) /\
      find_root_with_shift_nc fuel (f_par f) (f_off f) (Z.of_nat j) = Done (Z.of_nat rj, cj) /\
      (exists p' o', find_root_with_shift fuel (f_par f) (f_off f) (Z.of_nat i) = Done (p', o', Z.of_nat ri, ci)) /\
      (ri = rj <-> connected (map fst (requests ops)) i j) /\
      (forall s, linked A i j s -> osub ci cj = s) /\
      (forall pos, consistent pos (requests ops) -> ri = rj -> osub ci cj = osub (pos j) (pos i)).
Proof. exact shift_history. Qed.
Print Assumptions C10_shift_history.

(** One more union after any history: accepted iff the two elements were in
    different classes; relative offsets inside old classes are untouched. *)
Theorem C10_union_step : forall n ops fuel a b s, (n <= fuel)%nat -> Forall (s_below n) ops ->
  (a < n)%nat -> (b < n)%nat ->
  exists f f', run_shift fuel ops (shift_init n) = Done f /\
    union_with_shift fuel f (Z.of_nat a) (Z.of_nat b) s = Done f' /\
    (forall i j r ci cj,
       find_root_with_shift_nc fuel (f_par f) (f_off f) (Z.of_nat i) = Done (r, ci) ->
       find_root_with_shift_nc fuel (f_par f) (f_off f) (Z.of_nat j) = Done (r, cj) ->
       (i < n)%nat -> (j < n)%nat ->
       exists r' ci' cj',
         find_root_with_shift_nc fuel (f_par f') (f_off f') (Z.of_nat i) = Done (r', ci') /\
         find_root_with_shift_nc fuel (f_par f') (f_off f') (Z.of_nat j) = Done (r', cj') /\
         osub ci' cj' = osub ci cj) /\
    (~ connected (map fst (requests ops)) a b -> exists r' ca cb,
         find_root_with_shift_nc fuel (f_par f') (f_off f') (Z.of_nat a) = Done (r', ca) /\
         find_root_with_shift_nc fuel (f_par f') (f_off f') (Z.of_nat b) = Done (r', cb) /\
         osub ca cb = s).
Proof. exact shift_union_step. Qed.
Print Assumptions C10_union_step.

Example C10_ex :
  obind (run_shift 9 [SUnion 0 1 (0, 0, 1); SUnion 2 3 (1, 0, 0); SUnion 1 3 (0, 1, 0); SFind 2; SUnion 0 2 (5, 5, 5)] (shift_init 5))
   (fun f => obind (find_root_with_shift_nc 9 (f_par f) (f_off f) 0) (fun '(r0, c0) =>
             obind (find_root_with_shift_nc 9 (f_par f) (f_off f) 2) (fun '(r2, c2) =>
             Done (r0, r2, osub c0 c2)))) = Done (0, 0, (-1, 1, 1)).
Proof. reflexivity. Qed.

(** ** C53 *)
Theorem C53_concurrent_compression : forall p0, good_pointers p0 -> forall sched,
  let n := length p0 in
  let '(mem, ths) := run_sched sched (p0, start_threads n) in
  (forall i r, reaches p0 i r -> reaches mem i r) /\
  (forall i t, nth_error ths i = Some t -> t <> TCrash) /\
  (forall i r, nth_error ths i = Some (TDone r) ->
     (r = -1 /\ nth_error p0 i = Some (-1)) \/ (exists k, r = Z.of_nat k /\ reaches p0 i k)) /\
  (forall i, (i < n)%nat -> (5 * n + 2 <= count_occ Nat.eq_dec sched i)%nat ->
     exists r, nth_error ths i = Some (TDone r)).
Proof. exact compress_concurrent. Qed.
Print Assumptions C53_concurrent_compression.

(** Hence the complete result does not depend on the schedule. *)
Theorem C53_schedule_independent : forall p0 s1 s2, good_pointers p0 ->
  (forall i, (i < length p0)%nat -> (5 * length p0 + 2 <= count_occ Nat.eq_dec s1 i)%nat) ->
  (forall i, (i < length p0)%nat -> (5 * length p0 + 2 <= count_occ Nat.eq_dec s2 i)%nat) ->
  snd (run_sched s1 (p0, start_threads (length p0))) = snd (run_sched s2 (p0, start_threads (length p0))).
Proof. exact compress_schedule_independent. Qed.
Print Assumptions C53_schedule_independent.

Example C53_ex :
  snd (run_sched (concat (repeat [3; 0; 1; 2; 3; 4]%nat 30)) ([1; 2; 2; 0; -1], start_threads 5))
  = [TDone 2; TDone 2; TDone 2; TDone 2; TDone (-1)].
Proof. reflexivity. Qed.
