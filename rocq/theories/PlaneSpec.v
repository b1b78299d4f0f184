(** What it means to be a volume: repeated integration over slices.  Nothing here mentions the
    formula used by the code. *)
From Coq Require Import QArith Qabs.
From Verif Require Import Base.
Local Open Scope Z_scope.

(** The sum of [f] at the left ends of [n] equal pieces of the unit interval, times their width. *)
Definition riemann (f : Q -> Q) (n : nat) : Q :=
  (qsum (map (fun k => f (inject_Z (Z.of_nat k) / inject_Z (Z.of_nat n))) (seq 0 n)) / inject_Z (Z.of_nat n))%Q.

Definition integral (f : Q -> Q) (v : Q) : Prop :=
  forall eps, (0 < eps)%Q -> exists n0, forall n, (n0 <= n)%nat -> (Qabs (v - riemann f n) <= eps)%Q.

(** [volume l t v]: the part of the unit cube of dimension [length l] where [l . x <= t] has volume [v].
    In dimension zero the cube is a point; otherwise the volume is the integral of the slices. *)
Fixpoint volume (l : list Q) (t v : Q) : Prop :=
  match l with
  | [] => (0 <= t /\ v == 1)%Q \/ (t < 0 /\ v == 0)%Q
  | a :: r => exists f, (forall x, volume r (t - a * x) (f x)) /\ integral f v
  end.

Fixpoint dot (l x : list Q) : Q :=
  match l, x with a :: l, b :: x => (a * b + dot l x)%Q | _, _ => 0%Q end.

Definition in_cube (n : nat) (x : list Q) : Prop := length x = n /\ Forall (fun c => 0 <= c <= 1)%Q x.
