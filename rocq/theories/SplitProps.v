(** Properties of the splitting of domains by the atoms they surround. *)
From Coq Require Import QArith Lqa Sorted.
From Verif Require Import Base GridModel NeighModel RootsModel UnionModel SplitModel SplitSpec SplitProofs SplitTop.
Local Open Scope Z_scope.

(** C161: every new domain is a version of a given one and every given one has versions, which follow each other. *)
Theorem C161_versions doms steps : tight doms -> covers steps doms ->
  exists n origin, get_domains_surrounding_atoms doms steps = Done n /\ length origin = length n /\
    (forall k d, nth_error origin k = Some d -> (d < length doms)%nat) /\ (forall d, (d < length doms)%nat -> exists k, nth_error origin k = Some d) /\
    chained doms n origin.
Proof. intros T C. destruct (split_ok doms T steps C) as (n & origin & E & L & R & A & CH & _). exists n, origin. auto. Qed.
(** Versions of one domain do not overlap. *)
Theorem C161_disjoint doms n origin d D j k E F a b : chained doms n origin -> nth_error doms d = Some D ->
  version n origin d j E a -> version n origin d k F b -> (j < k)%nat -> (m_max E <= m_min F)%Q.
Proof.
  intros CH ED VJ. revert F b. induction k as [k IH] using lt_wf_ind. intros F b VK L. destruct (CH d D k F b ED VK) as (_ & _ & _ & _ & [(i & G & c & VG & IK & NX & _ & MG)|(FI & _)]).
  - rewrite <- MG. assert (JI : (j <= i)%nat) by (apply NX; [now destruct VJ|exact L]). destruct (Nat.eq_dec j i) as [->|N].
    + destruct VJ as [VJ _], VG as [VG _]. rewrite VJ in VG. injection VG as <- <-. apply Qle_refl.
    + specialize (IH i IK G c VG ltac:(lia)). destruct (CH d D i G c ED VG) as (_ & _ & _ & [NE|LA] & _); [lra|]. assert (H : (k <= i)%nat) by (apply LA; now destruct VK). lia.
  - assert (H : (k <= j)%nat) by (apply FI; now destruct VJ). lia.
Qed.
(** The new domains form a tree of the same kind: parents first, and each ends where its children begin. *)
Theorem C161_tree doms steps : tight doms -> covers steps doms ->
  exists n, get_domains_surrounding_atoms doms steps = Done n /\
    forall k E a, nth_error n k = Some (E, a) -> m_parent E = -1 \/
      exists p F b, m_parent E = Z.of_nat p /\ (p < k)%nat /\ nth_error n p = Some (F, b) /\ (m_max F == m_min E)%Q.
Proof.
  intros T C. destruct (split_ok doms T steps C) as (n & origin & E & L & R & A & CH & _). exists n. split; [exact E|]. intros k F a H.
  destruct (nth_error origin k) as [d|] eqn:OK; [|apply nth_error_None in OK; apply nth_error_len in H; lia]. destruct (nth_error doms d) as [D|] eqn:ED; [|apply nth_error_None in ED; apply R in OK; lia].
  destruct (CH d D k F a ED (conj H OK)) as (_ & _ & _ & _ & [(j & G & b & VG & JK & _ & PE & MG)|(_ & _ & [[_ PE]|(q & p & G & b & _ & VG & _ & PK & PE & MG)])]).
  - right. exists j, G, b. split; [exact PE|]. split; [exact JK|]. split; [now destruct VG|]. now rewrite MG.
  - now left.
  - right. exists p, G, b. split; [exact PE|]. split; [exact PK|]. split; [now destruct VG|exact MG].
Qed.

(** C162: at every value looked at, the version of a domain there has as many atoms as the domain surrounds, and a version
    has the atoms surrounded where it begins. *)
Theorem C162_atoms doms steps : tight doms -> covers steps doms ->
  exists n origin, get_domains_surrounding_atoms doms steps = Done n /\ chained doms n origin /\
    (forall s d, In s (processed steps) -> counted doms n origin s d) /\
    (forall d k E a, version n origin d k E a -> a = [] \/ exists s, In s (processed steps) /\ m_min E = fst s /\ a = atoms_of (snd s) d).
Proof. intros T C. destruct (split_ok doms T steps C) as (n & origin & E & _ & _ & _ & CH & A & X). exists n, origin. auto. Qed.
(** The atoms of a domain are those whose list mentions it. *)
Theorem C162_listed around d a : In a (atoms_of around d) <-> exists l, nth_error around a = Some l /\ In d l.
Proof.
  unfold atoms_of. rewrite in_flat_map. split.
  - intros ([x l] & H & I). apply in_map_iff in I as (y & <- & Y). apply filter_In in Y as [Y Q0]. apply Nat.eqb_eq in Q0 as <-. exists l. split; [|exact Y]. clear Y. assert (K : forall (r : list (list nat)) s, In (x, l) (combine (seq s (length r)) r) -> (s <= x)%nat /\ nth_error r (x - s) = Some l).
    { clear. induction r as [|c r IH]; intros s H; [destruct H|]. destruct H as [H|H]; [injection H as <- <-; rewrite Nat.sub_diag; auto|]. destruct (IH (S s) H) as [L E]. split; [lia|]. replace (x - s)%nat with (S (x - S s)) by lia. exact E. }
    apply (K around 0%nat) in H as [_ H]. now rewrite Nat.sub_0_r in H.
  - intros (l & N & I). exists (a, l). split.
    + assert (K : forall (r : list (list nat)) s i, nth_error r i = Some l -> In ((s + i)%nat, l) (combine (seq s (length r)) r)). { clear. induction r as [|c r IH]; intros s [|i] H; try discriminate; cbn in *; [injection H as ->; left; f_equal; lia|]. right. specialize (IH (S s) i H). now replace (s + S i)%nat with (S s + i)%nat by lia. }
      apply (K around 0%nat a N).
    + apply in_map_iff. exists d. split; [reflexivity|]. apply filter_In. split; [exact I|apply Nat.eqb_refl].
Qed.
Print Assumptions C161_versions.
Print Assumptions C161_disjoint.
Print Assumptions C161_tree.
Print Assumptions C162_atoms.
Print Assumptions C162_listed.

(** A molecule of two basins around two atoms. *)
Definition two : list domain := [Dm [0; 1]%nat 0 2 3 (-1); Dm [0]%nat 2 5 0 0; Dm [1]%nat 2 4 0 0]%Q.
Definition seen : list step := [(0, [[0]; [0]]%nat); (1, [[0]; []]%nat); (2, [[1]; []]%nat); (3, [[]; []])]%Q.
Example ex_tight : tight two /\ covers seen two.
Proof.
  split.
  - intros [|[|[|d]]] D H; cbn in H; [|injection H as <-|injection H as <-|destruct d; discriminate]; [injection H as <-; now left| |]; right; exists 0%nat; eexists; repeat split; cbn; lia.
  - split; [cbn; repeat constructor; lra|]. intros D [<-|[<-|[<-|[]]]]; eexists; (split; [|reflexivity]); cbn; auto.
Qed.
Example ex_split : get_domains_surrounding_atoms two seen = Done
  [(Dm [0; 1]%nat 0 1 3 (-1), [0; 1]%nat); (Dm [0; 1]%nat 1 2 3 0, [0]%nat); (Dm [0]%nat 2 3 0 1, [0]%nat); (Dm [1]%nat 2 4 0 1, []); (Dm [0]%nat 3 5 0 2, [])]%Q.
Proof. reflexivity. Qed.

(** C163: a change of atoms that leaves their number the same is not seen. *)
Theorem C163_atoms_refuted : exists doms steps n, tight doms /\ covers steps doms /\ get_domains_surrounding_atoms doms steps = Done n /\
  exists s d D, In s (processed steps) /\ nth_error doms d = Some D /\ (m_min D <= fst s)%Q /\ (fst s < m_max D)%Q /\
    forall E a, In (E, a) n -> (m_min E <= fst s)%Q -> (fst s < m_max E)%Q -> forall x, In x a -> ~ In x (atoms_of (snd s) d).
Proof.
  exists [Dm [0]%nat 0 5 3 (-1)]%Q, [(0, [[0]; []]%nat); (1, [[]; [0]]%nat)]%Q. eexists. split; [intros [|[|d]] D H; cbn in H; try discriminate; injection H as <-; now left|]. split; [split; [cbn; repeat constructor; lra|]; intros D [<-|[]]; exists 0%Q; cbn; split; [auto|reflexivity]|]. split; [reflexivity|].
  exists (1, [[]; [0]]%nat)%Q, 0%nat. eexists. split; [cbn; auto|]. split; [reflexivity|]. cbn [fst snd m_min m_max]. split; [lra|]. split; [lra|]. intros E a [H|[]] _ _ x X. injection H as <- <-. cbn in X |- *. lia.
Qed.

(** C164: below a domain whose range of values is empty the tree falls apart. *)
Theorem C164_empty_refuted : exists doms steps n, covers steps doms /\
  (forall d D, nth_error doms d = Some D -> m_parent D = -1 \/ exists q P, m_parent D = Z.of_nat q /\ nth_error doms q = Some P /\ (q < d)%nat /\ (m_max P == m_min D)%Q) /\
  get_domains_surrounding_atoms doms steps = Done n /\
  (exists d D, nth_error doms d = Some D /\ m_parent D <> -1) /\ forall E a, In (E, a) n -> m_parent E = -1.
Proof.
  exists [Dm [0; 1]%nat 0 0 3 (-1); Dm [0]%nat 0 5 0 0; Dm [1]%nat 0 4 0 0]%Q, [(0, [[1]]%nat)]%Q. eexists. split; [split; [cbn; repeat constructor|]; intros D [<-|[<-|[<-|[]]]]; exists 0%Q; cbn; (split; [auto|reflexivity])|]. split.
  - intros [|[|[|d]]] D H; cbn in H; [|injection H as <-|injection H as <-|destruct d; discriminate]; [injection H as <-; now left| |]; right; exists 0%nat; eexists; repeat split; cbn; lia.
  - split; [reflexivity|]. split; [exists 1%nat; eexists; split; [reflexivity|discriminate]|]. intros E a [H|[H|[H|[]]]]; injection H as <- <-; reflexivity.
Qed.
Print Assumptions C163_atoms_refuted.
Print Assumptions C164_empty_refuted.
