(** Which part of a feature belongs to which atom. *)
From Coq Require Import QArith.
From Verif Require Import Base ShareModel.
Local Open Scope nat_scope.

(** Weight of an atom before normalisation. *)
Definition raw (sys : system) (use_e : bool) (m : method) (f : feature) (a : nat) : Q :=
  let d := nth a (if use_e then ft_dists_e f else ft_dists f) 0%Q in
  let r := nth a (if use_e then s_radii_e sys else s_radii sys) 0%Q in
  match m with
  | Equal => 1
  | Pauling => nth a (s_en sys) 0
  | Dist => / d
  | Weighted => r / d
  | Nearest => 0
  end%Q.

Definition neighbours (use_e : bool) (f : feature) : list nat := if use_e then ft_coord_e f else ft_coord f.

(** The fraction of feature [f] that atom [a] gets: its weight, once per image, over all weights. *)
Definition fraction (sys : system) (use_e : bool) (m : method) (f : feature) (a : nat) : Q :=
  match neighbours use_e f with
  | [b] => if Nat.eqb a b then 1%Q else 0%Q
  | l => (qsum (map (fun b => if Nat.eqb a b then raw sys use_e m f b else 0%Q) l) / qsum (map (raw sys use_e m f) l))%Q
  end.

(** Fraction of the feature at position [i] of the list: bare electrons are sites of their own. *)
Definition owned (sys : system) (use_e : bool) (m : method) (i : nat) (f : feature) (a : nat) : Q :=
  if (use_e && ft_bare f)%bool
  then if Nat.eqb a (s_atoms sys + length (filter ft_bare (firstn i (s_features sys)))) then 1%Q else 0%Q
  else fraction sys use_e m f a.

(** Every shared feature has neighbours among the sites; their weights do not add up to zero
    and no distance that is divided by is zero. *)
Definition sharable (sys : system) (use_e : bool) (m : method) : Prop :=
  m <> Nearest /\
  forall f, In f (s_features sys) -> (use_e && ft_bare f)%bool = false ->
    neighbours use_e f <> [] /\ (forall b, In b (neighbours use_e f) -> b < n_sites sys use_e) /\
    (1 < length (neighbours use_e f) ->
       ~ (qsum (map (raw sys use_e m f) (neighbours use_e f)) == 0)%Q /\
       (m = Dist \/ m = Weighted -> forall b, In b (neighbours use_e f) ->
          ~ (nth b (if use_e then ft_dists_e f else ft_dists f) 0 == 0)%Q)).
