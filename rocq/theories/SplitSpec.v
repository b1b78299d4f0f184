(** What a split of domains is. *)
From Coq Require Import QArith Sorted.
From Verif Require Import Base GridModel NeighModel RootsModel UnionModel SplitModel.
Local Open Scope Z_scope.

(** The domains given: a parent comes before its children, has a non-empty range of values and ends where they begin. *)
Definition tight (doms : list domain) : Prop :=
  forall d D, nth_error doms d = Some D -> m_parent D = -1 \/
    exists q P, m_parent D = Z.of_nat q /\ nth_error doms q = Some P /\ (q < d)%nat /\ (m_min P < m_max P)%Q /\ (m_max P == m_min D)%Q.
(** The values: increasing, with the one at which each domain begins. *)
Definition covers (steps : list step) (doms : list domain) : Prop :=
  StronglySorted (fun a b => (a < b)%Q) (map fst steps) /\
  forall D, In D doms -> exists v, In v (map fst steps) /\ (v == m_min D)%Q.
(** The values at which the atoms are looked at: up to the first where no atom is surrounded. *)
Fixpoint processed (steps : list step) : list step :=
  match steps with
  | [] => []
  | (v, around) :: t => (v, around) :: if forallb (fun l : list nat => match l with [] => true | _ => false end) around then [] else processed t
  end.

(** New domain number [k] is a version of domain [d]. *)
Definition version (n : news) (origin : list nat) (d k : nat) (E : domain) (atoms : list nat) : Prop :=
  nth_error n k = Some (E, atoms) /\ nth_error origin k = Some d.
(** [k] is the last version of [d]. *)
Definition last_of (origin : list nat) (d k : nat) : Prop := forall j, nth_error origin j = Some d -> (j <= k)%nat.

(** The versions of a domain follow each other: each ends where the next begins and is its parent; the first begins
    with the domain and hangs below the last version of the old parent, the last ends with the domain; all others have a non-empty range. *)
Definition chained (doms : list domain) (n : news) (origin : list nat) : Prop :=
  forall d D k E a, nth_error doms d = Some D -> version n origin d k E a ->
    m_basins E = m_basins D /\ m_dim E = m_dim D /\ (last_of origin d k -> m_max E = m_max D) /\ ((m_min E < m_max E)%Q \/ last_of origin d k) /\
    ((exists j F b, version n origin d j F b /\ (j < k)%nat /\ (forall j', nth_error origin j' = Some d -> (j' < k)%nat -> (j' <= j)%nat) /\
        m_parent E = Z.of_nat j /\ m_max F = m_min E) \/
     ((forall j, nth_error origin j = Some d -> (k <= j)%nat) /\ (m_min E == m_min D)%Q /\
        ((m_parent D = -1 /\ m_parent E = -1) \/
         exists q p F b, m_parent D = Z.of_nat q /\ version n origin q p F b /\ last_of origin q p /\ (p < k)%nat /\ m_parent E = Z.of_nat p /\ (m_max F == m_min E)%Q))).
(** Of a domain alive at [v], the version at [v] has as many atoms as are surrounded there. *)
Definition counted (doms : list domain) (n : news) (origin : list nat) (s : step) (d : nat) : Prop :=
  forall D, nth_error doms d = Some D -> (m_min D <= fst s)%Q -> (fst s < m_max D)%Q ->
    exists k E a, version n origin d k E a /\ (m_min E <= fst s)%Q /\ (fst s < m_max E)%Q /\ length a = length (atoms_of (snd s) d) /\
      ((m_min E == fst s)%Q -> a = atoms_of (snd s) d).
