(** [compress_roots] as a concurrent program: the [prange] iterations run
    [find_root] on one shared [parents] array without locks.  Every read and
    write of the shared array is a separate atomic step. *)
From Verif Require Import Base GridModel NeighModel RootsModel UnionModel.

(** Program counter of iteration [i] of union_find.py lines 162-169; [find_root]
    (lines 13-16) is inlined ([inline="always"]). *)
Inductive thread :=
| TStart (i : nat)                  (* line 163: read parents[i] *)
| TCond (x : Z)                     (* line 13: read parents[x] and compare *)
| TRead1 (x : Z)                    (* line 14: read parents[x] *)
| TRead2 (x a : Z)                  (* line 14: read parents[a] *)
| TWrite (x b : Z)                  (* line 14: write parents[x] *)
| TRead3 (x : Z)                    (* line 15: x = parents[x] *)
| TDone (r : Z)                     (* line 166 or 169: new_parents[i] = r *)
| TCrash.                           (* index out of range *)

Definition tstep (mem : list Z) (t : thread) : list Z * thread :=
  let rdm x k := match np_get mem x with Some v => (mem, k v) | None => (mem, TCrash) end in
  match t with
  | TStart i => rdm (Z.of_nat i) (fun v => if v =? -1 then TDone (-1) else TCond v)
  | TCond x => rdm x (fun v => if x =? v then TDone x else TRead1 x)
  | TRead1 x => rdm x (fun v => TRead2 x v)
  | TRead2 x a => rdm a (fun v => TWrite x v)
  | TWrite x b => match np_set mem x b with Some m => (m, TRead3 x) | None => (mem, TCrash) end
  | TRead3 x => rdm x (fun v => TCond v)
  | TDone r => (mem, TDone r)
  | TCrash => (mem, TCrash)
  end.

(** One scheduling decision: thread number [t] takes a step. *)
Definition sstep (st : list Z * list thread) (t : nat) : list Z * list thread :=
  let '(mem, ths) := st in
  match nth_error ths t with
  | None => st
  | Some th => let '(m, th') := tstep mem th in (m, upd ths t th')
  end.

Definition run_sched (sched : list nat) (st : list Z * list thread) := fold_left sstep sched st.

Definition start_threads (n : nat) : list thread := map TStart (seq 0 n).
