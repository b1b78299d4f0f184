(** C275-C278: where keyword arguments go. *)
From Coq Require Import String QArith.
From Verif Require Import Base KwModel.
Local Open Scope string_scope.
Local Open Scope list_scope.

(** The value of a setting with default [d] under the arguments [args]. *)
Definition setting (args : kwargs) (k : string) (d v : value) : Prop := In (k, v) args \/ (~ In k (map fst args) /\ v = d).
Definition tolerance (v w : value) : Prop := (v = VBool true /\ w = VNum (1 # 1000)) \/ (v <> VBool true /\ w = v).

Lemma repeated_NoDup l : repeated l = false <-> NoDup l.
Proof.
  induction l as [|k t IH]; cbn; [split; auto using NoDup_nil|]. rewrite orb_false_iff, IH, NoDup_cons_iff.
  split; intros [A B]; split; auto.
  - intro H. assert (existsb (String.eqb k) t = true) by (apply existsb_exists; exists k; split; [exact H|apply String.eqb_refl]). congruence.
  - destruct (existsb (String.eqb k) t) eqn:E; [|reflexivity]. apply existsb_exists in E as (x & Hx & E). apply String.eqb_eq in E. now subst.
Qed.
Lemma lookup_none k l : lookup k l = None <-> ~ In k (map fst l).
Proof.
  unfold lookup. destruct (find _ l) as [x|] eqn:E; cbn.
  - apply find_some in E as [H E]. apply String.eqb_eq in E. split; [discriminate|]. intro N. destruct N. rewrite E. now apply in_map.
  - split; auto. intros _ H. apply in_map_iff in H as (x & <- & H). pose proof (find_none _ _ E x H) as K. cbn in K. now rewrite String.eqb_refl in K.
Qed.
Lemma lookup_in k v l : NoDup (map fst l) -> (lookup k l = Some v <-> In (k, v) l).
Proof.
  unfold lookup. induction l as [|[j w] l IH]; intro N; cbn; [split; [discriminate|tauto]|]. apply NoDup_cons_iff in N as [N0 N].
  destruct (String.eqb_spec k j) as [->|D]; cbn.
  - split; [intros [= ->]; auto|]. intros [[= ->]|H]; [reflexivity|]. destruct N0. apply in_map_iff. exists (j, v). auto.
  - rewrite IH by exact N. split; [auto|]. intros [[= -> ->]|H]; [congruence|exact H].
Qed.
Lemma lookup_setting args k d : NoDup (map fst args) -> setting args k d (match lookup k args with Some v => v | None => d end).
Proof.
  intro N. destruct (lookup k args) as [v|] eqn:E; [left; now apply lookup_in|right; split; [now apply lookup_none|reflexivity]].
Qed.
Lemma fill_get params args : forall env, fill params args = Some env -> NoDup (map fst params) -> forall k d, In (k, d) params ->
  lookup k env = match lookup k args with Some v => Some v | None => d end.
Proof.
  induction params as [|[j e] t IH]; intros env F N k d H; [destruct H|]. cbn in F. cbn in N. apply NoDup_cons_iff in N as [N0 N].
  destruct (match lookup j args with Some v => Some v | None => e end) as [v|] eqn:V; [|discriminate]. destruct (fill t args) as [r|]; [|discriminate]. injection F as <-.
  destruct H as [[= -> ->]|H].
  - unfold lookup at 1. cbn. rewrite String.eqb_refl. cbn. now rewrite V.
  - unfold lookup at 1. cbn. destruct (String.eqb_spec k j) as [->|D]; [destruct N0; apply in_map_iff; exists (j, d); auto|]. apply (IH r eq_refl N k d H).
Qed.
Lemma fill_none params args : fill params args = None <-> exists k, In (k, None) params /\ ~ In k (map fst args).
Proof.
  induction params as [|[j e] t IH]; cbn; [split; [discriminate|intros (k & [] & _)]|].
  destruct (match lookup j args with Some v => Some v | None => e end) as [v|] eqn:V.
  - destruct (fill t args) as [r|].
    + split; [discriminate|]. intros (k & [[= -> ->]|H] & N); [|assert (K : Some r = None) by (apply IH; eauto); discriminate K].
      apply lookup_none in N. rewrite N in V. discriminate.
    + split; auto. intros _. destruct (proj1 IH eq_refl) as (k & H & N). exists k. auto.
  - split; auto. intros _. destruct (lookup j args) eqn:L; [discriminate|]. subst. exists j. split; [now left|now apply lookup_none].
Qed.
Lemma call_some {A} params args (body : kwargs -> kwargs -> option A) r : call params args body = Some r ->
  NoDup (map fst args) /\ exists env, fill params args = Some env /\ body env (rest_of params args) = Some r.
Proof.
  unfold call. destruct (repeated (map fst args)) eqn:R; [discriminate|]. apply repeated_NoDup in R.
  destruct (fill params args) as [env|]; [|discriminate]. eauto.
Qed.
Lemma get_setting params args env k d : fill params args = Some env -> NoDup (map fst params) -> NoDup (map fst args) -> In (k, Some d) params ->
  setting args k d (get k env).
Proof.
  intros F NP NA H. unfold get. rewrite (fill_get params args env F NP k (Some d) H). pose proof (lookup_setting args k d NA) as S.
  destruct (lookup k args); exact S.
Qed.
Lemma get_required params args env k : fill params args = Some env -> NoDup (map fst params) -> NoDup (map fst args) -> In (k, None) params ->
  In (k, get k env) args.
Proof.
  intros F NP NA H. unfold get. rewrite (fill_get params args env F NP k None H). destruct (lookup k args) as [v|] eqn:L.
  - now apply lookup_in.
  - exfalso. assert (fill params args = None) by (apply fill_none; exists k; split; [exact H|now apply lookup_none]). congruence.
Qed.
Lemma rest_in params args k v : In (k, v) (rest_of params args) <-> In (k, v) args /\ ~ In k (map fst params).
Proof.
  unfold rest_of. rewrite filter_In, negb_true_iff. cbn. split; intros [A B]; split; auto.
  - intro H. apply in_map_iff in H as (p & <- & H). assert (existsb (fun p0 => String.eqb (fst p) (fst p0)) params = true) by (apply existsb_exists; exists p; split; [exact H|apply String.eqb_refl]). congruence.
  - match goal with |- ?x = false => destruct x eqn:E end; [|reflexivity]. apply existsb_exists in E as (p & H & E). apply String.eqb_eq in E. destruct B. rewrite E. now apply in_map.
Qed.
Lemma rest_keys params args k : In k (map fst (rest_of params args)) <-> In k (map fst args) /\ ~ In k (map fst params).
Proof.
  split.
  - intro H. apply in_map_iff in H as ([j v] & <- & H). apply rest_in in H as [H N]. split; [apply in_map_iff; exists (j, v); auto|exact N].
  - intros (H & N). apply in_map_iff in H as ([j v] & <- & H). apply in_map_iff. exists (j, v). split; [reflexivity|]. now apply rest_in.
Qed.
Lemma rest_setting params args k d v : ~ In k (map fst params) -> (setting (rest_of params args) k d v <-> setting args k d v).
Proof. intro N. unfold setting. rewrite rest_in, rest_keys. tauto. Qed.
(** Explicit arguments before the remaining ones. *)
Lemma setting_app own l k d v : ~ In k (map fst own) -> (setting (own ++ l) k d v <-> setting l k d v).
Proof.
  intro N. unfold setting. rewrite map_app, !in_app_iff. assert (~ In (k, v) own) by (intro H; apply N; apply in_map_iff; exists (k, v); auto). tauto.
Qed.
Lemma setting_own own l k d v w : NoDup (map fst (own ++ l)) -> In (k, w) own -> setting (own ++ l) k d v -> v = w.
Proof.
  intros N I [H|[H _]].
  - apply (lookup_in k w) in N as N1. apply (lookup_in k v) in N. assert (In (k, w) (own ++ l)) by (apply in_app_iff; auto). apply N1 in H0. apply N in H. congruence.
  - destruct H. apply in_map_iff. exists (k, w). split; [reflexivity|]. apply in_app_iff. auto.
Qed.
Ltac keys := repeat constructor; cbn; intuition discriminate.

(** ** C275: settings of the labeler and of its Bader analysis *)
(** A keyword given takes effect, one left out has its default; all others of the same call do not matter. *)
Definition labelled_with (args : kwargs) (charge reference : value) (l : labeler) : Prop :=
  l_charge l = charge /\ l_reference l = reference /\
  (forall k d, In (k, d) labeler_settings -> setting args k d (get k (l_settings l))) /\
  b_charge (l_bader l) = charge /\ (reference <> VNone -> b_reference (l_bader l) = reference) /\
  setting args "method" (VStr "weight") (b_method (l_bader l)) /\
  setting args "basin_tol" (VNum (1 # 1000)) (b_basin (l_bader l)) /\
  (exists v, setting args "vacuum_tol" (VNum (1 # 1000)) v /\ tolerance v (b_vacuum (l_bader l))) /\
  b_ref_vacuum (l_bader l) = VBool false.

Lemma bader_spec args b : bader_init args = Some b ->
  NoDup (map fst args) /\ In ("charge_grid", b_charge b) args /\
  (exists v, setting args "reference_grid" VNone v /\ b_reference b = match v with VNone => b_charge b | _ => v end) /\
  setting args "method" (VStr "weight") (b_method b) /\ (exists m, b_method b = VStr m /\ In m bader_methods) /\
  (exists v, setting args "vacuum_tol" (VNum (1 # 1000)) v /\ tolerance v (b_vacuum b)) /\
  setting args "basin_tol" (VNum (1 # 1000)) (b_basin b) /\ setting args "use_reference_vacuum" (VBool true) (b_ref_vacuum b).
Proof.
  intro H. apply call_some in H as (N & env & F & H).
  assert (NP : NoDup (map fst bader_params)) by keys.
  assert (G : forall k d, In (k, Some d) bader_params -> setting args k d (get k env)) by (intros; eapply get_setting; eauto).
  pose proof (G "method" (VStr "weight") ltac:(cbn; auto 10)) as GM. destruct (get "method" env) as [| | |m| | |] eqn:M; try discriminate.
  destruct (existsb (String.eqb m) bader_methods) eqn:E; [|discriminate]. injection H as <-. cbn [b_charge b_reference b_method b_vacuum b_basin b_ref_vacuum].
  split; [exact N|]. split; [apply (get_required bader_params); auto; now left|].
  split; [exists (get "reference_grid" env); split; [apply G; cbn; auto 10|now destruct (get "reference_grid" env)]|]. split; [exact GM|].
  split. { exists m. split; [reflexivity|]. apply existsb_exists in E as (x & Hx & E). apply String.eqb_eq in E. now subst. }
  split. { exists (get "vacuum_tol" env). split; [apply G; cbn; auto 10|]. unfold tolerance. destruct (get "vacuum_tol" env) as [|[]| | | | |]; try (right; split; [discriminate|reflexivity]). now left. }
  split; apply G; cbn; auto 10.
Qed.

Definition own_keys : list string := ["charge_grid"; "reference_grid"; "vacuum_tol"; "use_reference_vacuum"].
Lemma labeler_NoDup : NoDup (map fst labeler_params).
Proof. apply repeated_NoDup. reflexivity. Qed.
Lemma map_get k (d : value) env l : In (k, d) l -> get k (map (fun x => (fst x, get (fst x) env)) l) = get k env.
Proof.
  intro H. unfold get at 1, lookup. induction l as [|[j e] l IH]; [destruct H|]. cbn. destruct (String.eqb_spec k j) as [->|D]; [reflexivity|].
  destruct H as [[= -> ->]|H]; [congruence|]. now apply IH.
Qed.
Theorem C275_labeler : forall args l, labeler_init args = Some l ->
  exists charge reference, In ("charge_grid", charge) args /\ In ("reference_grid", reference) args /\ labelled_with args charge reference l.
Proof.
  intros args l H. apply call_some in H as (N & env & F & H). pose proof labeler_NoDup as NP.
  set (own := [("charge_grid", get "charge_grid" env); ("reference_grid", get "reference_grid" env); ("vacuum_tol", get "vacuum_tol" env); ("use_reference_vacuum", VBool false)]) in *.
  destruct (bader_init (own ++ rest_of labeler_params args)) as [b|] eqn:B; [|discriminate]. injection H as <-.
  apply bader_spec in B as (NB & BC & (r & BR & ER) & BM & _ & (v & BV & TV) & BB & BU).
  assert (G : forall k d, In (k, Some d) labeler_params -> setting args k d (get k env)) by (intros; eapply get_setting; eauto).
  assert (RS : forall k d v, ~ In k (map fst labeler_params) -> ~ In k (map fst own) -> setting (own ++ rest_of labeler_params args) k d v -> setting args k d v).
  { intros k d w N1 N2 S. apply setting_app in S; [|exact N2]. now apply rest_setting in S. }
  assert (OW : forall k d v w, In (k, w) own -> setting (own ++ rest_of labeler_params args) k d v -> v = w) by (intros; eapply setting_own; eauto).
  exists (get "charge_grid" env), (get "reference_grid" env).
  split; [apply (get_required labeler_params); auto; cbn; auto|]. split; [apply (get_required labeler_params); auto; cbn; auto|].
  unfold labelled_with. cbn [l_charge l_reference l_settings l_bader]. split; [reflexivity|]. split; [reflexivity|]. split.
  { intros k d I. change (setting args k d (get k (map (fun x => (fst x, get (fst x) env)) labeler_settings))). rewrite (map_get k d env labeler_settings I). apply G. unfold labeler_params. apply in_or_app. right. apply in_or_app. left.
    apply in_map_iff. exists (k, d). auto. }
  split; [apply (OW "charge_grid" VNone); [unfold own; cbn; auto|left; exact BC]|].
  split. { intro NN. assert (r = get "reference_grid" env) as -> by (apply (OW "reference_grid" VNone); [unfold own; cbn; auto|exact BR]).
    rewrite ER. destruct (get "reference_grid" env); congruence. }
  split; [apply RS; [intro I; apply in_map_iff in I as (x & E & I); cbn in I; decompose [or] I; subst; try discriminate; assumption|cbn; intuition discriminate|exact BM]|].
  split; [apply RS; [intro I; apply in_map_iff in I as (x & E & I); cbn in I; decompose [or] I; subst; try discriminate; assumption|cbn; intuition discriminate|exact BB]|].
  split. { exists v. split; [|exact TV]. assert (v = get "vacuum_tol" env) as -> by (apply (OW "vacuum_tol" (VNum (1 # 1000))); [unfold own; cbn; auto|exact BV]). apply G. cbn. auto 30. }
  apply (OW "use_reference_vacuum" (VBool true)); [unfold own; cbn; auto|exact BU].
Qed.
Print Assumptions C275_labeler.

(** The call succeeds exactly when both grids are given, no keyword is repeated, the method exists and the vacuum of the
    reference grid is not asked for, whatever other keywords are given. *)
Theorem C275_accepts : forall args, labeler_init args <> None <->
  NoDup (map fst args) /\ In "charge_grid" (map fst args) /\ In "reference_grid" (map fst args) /\
  ~ In "use_reference_vacuum" (map fst args) /\ (forall v, In ("method", v) args -> exists m, v = VStr m /\ In m bader_methods).
Proof.
  intro args. split.
  - intro H. destruct (labeler_init args) as [l|] eqn:E; [|congruence]. pose proof E as E0. apply C275_labeler in E0 as (c & r & IC & IR & _).
    apply call_some in E as (N & env & F & B). destruct (bader_init _) as [b|] eqn:BE; [|discriminate]. apply bader_spec in BE as (NB & _ & _ & BM & (m & Em & Im) & _).
    split; [exact N|]. split; [apply in_map_iff; exists ("charge_grid", c); auto|]. split; [apply in_map_iff; exists ("reference_grid", r); auto|]. split.
    + intro U. rewrite map_app in NB. cbn [map fst app] in NB.
      apply NoDup_cons_iff in NB as [_ NB]. apply NoDup_cons_iff in NB as [_ NB]. apply NoDup_cons_iff in NB as [_ NB]. apply NoDup_cons_iff in NB as [NB _].
      apply NB. apply rest_keys. split; [exact U|]. intro I. apply in_map_iff in I as (x & Ex & I). cbn in I. decompose [or] I; subst; try discriminate; assumption.
    + intros v I. apply setting_app in BM; [|cbn; intuition discriminate]. apply rest_setting in BM.
      2: { intro J. apply in_map_iff in J as (x & Ex & J). cbn in J. decompose [or] J; subst; try discriminate; assumption. }
      destruct BM as [J|[J _]]; [|destruct J; apply in_map_iff; exists ("method", v); auto].
      apply (lookup_in "method" v) in N as N1. apply (lookup_in "method" (b_method b)) in N. apply N1 in I. apply N in J. exists m. split; [congruence|exact Im].
  - intros (N & C & R & U & M) H. unfold labeler_init, call in H. rewrite (proj2 (repeated_NoDup _) N) in H.
    destruct (fill labeler_params args) as [env|] eqn:F.
    2: { apply fill_none in F as (k & I & NI). cbn in I. decompose [or] I; try discriminate; try congruence; try assumption. }
    match type of H with match bader_init ?x with _ => _ end = _ => set (al := x) in *; destruct (bader_init al) as [b|] eqn:BE end; [discriminate|]. clear H.
    unfold bader_init, call in BE.
    assert (NA : NoDup (map fst al)).
    { unfold al. rewrite map_app. cbn [map fst app].
      assert (K : forall k, In k own_keys -> ~ In k (map fst (rest_of labeler_params args))).
      { intros k I J. apply rest_keys in J as [J NJ]. cbn in I. decompose [or] I; subst; try contradiction; apply NJ; cbn; auto 30. }
      repeat (apply NoDup_cons; [cbn [In]; intro I; decompose [or] I; try discriminate; match goal with H : In ?k _ |- _ => apply (K k); [cbn; auto|exact H] end|]).
      unfold rest_of. clear - N. induction args as [|x args IH]; [constructor|]. cbn in N. apply NoDup_cons_iff in N as [N0 N]. cbn.
      destruct (negb _); [|now apply IH]. cbn. apply NoDup_cons; [|now apply IH]. intro I. apply N0. apply in_map_iff in I as (y & E & I). apply filter_In in I as [I _]. rewrite <- E. now apply in_map. }
    rewrite (proj2 (repeated_NoDup _) NA) in BE. destruct (fill bader_params al) as [e2|] eqn:F2.
    2: { apply fill_none in F2 as (k & I & NI). cbn in I. decompose [or] I; try discriminate; try contradiction. injection H as <-. apply NI. unfold al. cbn. auto. }
    assert (S : setting al "method" (VStr "weight") (get "method" e2)) by (eapply get_setting; eauto; [keys|cbn; auto 10]).
    assert (exists m, get "method" e2 = VStr m /\ In m bader_methods) as (m & EM & Im).
    { destruct S as [S|[_ ->]]; [|exists "weight"; split; [reflexivity|cbn; auto]]. apply M. unfold al in S. apply in_app_iff in S as [S|S].
      - cbn in S. decompose [or] S; try discriminate; contradiction.
      - now apply rest_in in S. }
    assert (existsb (String.eqb m) bader_methods = true) as X by (apply existsb_exists; exists m; split; [exact Im|apply String.eqb_refl]).
    rewrite EM, X in BE. discriminate.
Qed.
Print Assumptions C275_accepts.

(** ** C276: settings given to the classes around the labeler *)
Lemma labelled_transfer args args' c r l : labelled_with args' c r l ->
  (forall k d v, k <> "charge_grid" -> k <> "reference_grid" -> setting args' k d v -> setting args k d v) -> labelled_with args c r l.
Proof.
  intros (A & B & S & C & D & M & T & (v & V & TV) & U) H. unfold labelled_with. repeat (split; [assumption|]).
  split. { intros k d I. apply H; [| |now apply S]; intros ->; cbn in I; decompose [or] I; try discriminate; assumption. }
  split; [exact C|]. split; [exact D|]. split; [apply H; [discriminate|discriminate|exact M]|]. split; [apply H; [discriminate|discriminate|exact T]|].
  split; [exists v; split; [apply H; [discriminate|discriminate|exact V]|exact TV]|exact U].
Qed.
Lemma own_value (own l : kwargs) k v w : NoDup (map fst (own ++ l)) -> In (k, v) own -> In (k, w) (own ++ l) -> w = v.
Proof. intros N I J. apply (setting_own own l k VNone w v); auto. now left. Qed.
Lemma labeler_own own args l c r : labeler_init (own ++ args) = Some l -> In ("charge_grid", c) own -> In ("reference_grid", r) own ->
  (forall k, In k (map fst own) -> k = "charge_grid" \/ k = "reference_grid") -> labelled_with args c r l.
Proof.
  intros H C R K. pose proof H as H0. apply call_some in H0 as (N & _). apply C275_labeler in H as (c' & r' & IC & IR & L).
  apply (own_value own args _ _ _ N C) in IC. apply (own_value own args _ _ _ N R) in IR. subst.
  eapply labelled_transfer; [exact L|]. intros k d v N1 N2 S. apply setting_app in S; [exact S|]. intro I. apply K in I. tauto.
Qed.
Theorem C276_spin : forall up down equal_spin args u d, spin_labeler_init up down equal_spin args = Some (u, d) ->
  exists c r, In ("charge_grid", c) args /\ In ("reference_grid", r) args /\ labelled_with args (up c) (up r) u /\
    (if equal_spin r then d = u else labelled_with args (down c) (down r) d).
Proof.
  intros up down equal_spin args u d H. apply call_some in H as (N & env & F & H). exists (get "charge_grid" env), (get "reference_grid" env).
  assert (NP : NoDup (map fst spin_labeler_params)) by keys.
  split; [apply (get_required spin_labeler_params); auto; cbn; auto|]. split; [apply (get_required spin_labeler_params); auto; cbn; auto|].
  assert (T : forall c r l, labelled_with (rest_of spin_labeler_params args) c r l -> labelled_with args c r l).
  { intros c r l L. eapply labelled_transfer; [exact L|]. intros k e v N1 N2 S. apply rest_setting in S; [exact S|]. cbn. intuition congruence. }
  cbv zeta in H. match type of H with match ?x with _ => _ end = _ => destruct x as [u'|] eqn:U end; [|discriminate].
  assert (LU : labelled_with args (up (get "charge_grid" env)) (up (get "reference_grid" env)) u').
  { apply T. eapply labeler_own; [exact U| | |]; cbn; auto. intuition. }
  destruct (equal_spin (get "reference_grid" env)) eqn:E.
  - injection H as <- <-. auto.
  - match type of H with match ?x with _ => _ end = _ => destruct x as [d'|] eqn:D end; [|discriminate]. injection H as <- <-. split; [exact LU|].
    apply T. eapply labeler_own; [exact D| | |]; cbn; auto. intuition.
Qed.
Print Assumptions C276_spin.

Theorem C276_badelf : forall args f, badelf_init args = Some f ->
  In ("charge_grid", f_charge f) args /\ In ("reference_grid", f_reference f) args /\
  setting args "method" (VStr "zero-flux") (f_method f) /\ (exists m, f_method f = VStr m /\ In m badelf_methods) /\
  setting args "shared_feature_splitting_method" (VStr "weighted_dist") (f_splitting f) /\
  exists e, setting args "elf_labeler" (VDict []) e /\
    match e with
    | VDict d => exists l, f_labeler f = inl l /\ labelled_with d (f_charge f) (f_reference f) l
    | _ => f_labeler f = inr e
    end.
Proof.
  intros args f H. apply call_some in H as (N & env & F & H). assert (NP : NoDup (map fst badelf_params)) by keys.
  assert (G : forall k d, In (k, Some d) badelf_params -> setting args k d (get k env)) by (intros; eapply get_setting; eauto).
  cbv zeta in H. pose proof (G "method" (VStr "zero-flux") ltac:(cbn; auto 10)) as GM. destruct (get "method" env) as [| | |m| | |] eqn:M; try discriminate.
  destruct (existsb (String.eqb m) badelf_methods) eqn:E; [|discriminate].
  assert (Im : In m badelf_methods) by (apply existsb_exists in E as (x & Hx & E); apply String.eqb_eq in E; now subst).
  pose proof (G "elf_labeler" (VDict []) ltac:(cbn; auto 10)) as GE. pose proof (G "shared_feature_splitting_method" (VStr "weighted_dist") ltac:(cbn; auto 10)) as GS.
  assert (RC : In ("charge_grid", get "charge_grid" env) args) by (apply (get_required badelf_params); auto; cbn; auto).
  assert (RR : In ("reference_grid", get "reference_grid" env) args) by (apply (get_required badelf_params); auto; cbn; auto).
  destruct (get "elf_labeler" env) as [|b|q|t|n|d|n] eqn:L;
    try (injection H as <-; cbn [f_charge f_reference f_method f_splitting f_labeler]; repeat (split; [solve [eauto]|]); eexists; split; [exact GE|reflexivity]).
  match type of H with match ?x with _ => _ end = _ => destruct x as [l|] eqn:LI end; [|discriminate]. injection H as <-. cbn [f_charge f_reference f_method f_splitting f_labeler].
  repeat (split; [solve [eauto]|]). exists (VDict d). split; [exact GE|]. exists l. split; [reflexivity|].
  eapply labeler_own; [exact LI| | |]; cbn; auto. intuition.
Qed.
Print Assumptions C276_badelf.

Theorem C276_spin_badelf : forall up down equal_spin args lu ld fu fd, spin_badelf_init up down equal_spin args = Some ((lu, ld), (fu, fd)) ->
  exists c r d, In ("charge_grid", c) args /\ In ("reference_grid", r) args /\ setting args "elf_labeler" (VDict []) (VDict d) /\
    labelled_with d (up c) (up r) lu /\ f_charge fu = up c /\ f_reference fu = up r /\
    (if equal_spin r then ld = lu /\ fd = fu else labelled_with d (down c) (down r) ld /\ f_charge fd = down c /\ f_reference fd = down r) /\
    forall f, f = fu \/ f = fd -> setting args "method" (VStr "zero-flux") (f_method f) /\
      setting args "shared_feature_splitting_method" (VStr "weighted_dist") (f_splitting f).
Proof.
  intros up down equal_spin args lu ld fu fd H. apply call_some in H as (N & env & F & H). cbv zeta in H. assert (NP : NoDup (map fst spin_badelf_params)) by keys.
  pose proof (get_setting spin_badelf_params args env "elf_labeler" (VDict []) F NP N ltac:(cbn; auto 10)) as GE.
  destruct (get "elf_labeler" env) as [| | | | |d|] eqn:L; try discriminate.
  exists (get "charge_grid" env), (get "reference_grid" env), d.
  split; [apply (get_required spin_badelf_params); auto; cbn; auto|]. split; [apply (get_required spin_badelf_params); auto; cbn; auto|].
  split; [exact GE|].
  match type of H with match ?x with _ => _ end = _ => destruct x as [[lu' ld']|] eqn:LS end; [|discriminate].
  assert (B : forall c r o f, badelf_init ([("reference_grid", r); ("charge_grid", c); ("elf_labeler", o)] ++ rest_of spin_badelf_params args) = Some f ->
    f_charge f = c /\ f_reference f = r /\ setting args "method" (VStr "zero-flux") (f_method f) /\
      setting args "shared_feature_splitting_method" (VStr "weighted_dist") (f_splitting f)).
  { intros c r o f E. pose proof E as E0. apply call_some in E0 as (NB & _). apply C276_badelf in E as (BC & BR & BM & _ & BS & _).
    split; [eapply own_value; [exact NB| |exact BC]; cbn; auto|]. split; [eapply own_value; [exact NB| |exact BR]; cbn; auto|].
    apply setting_app in BM; [|cbn; intuition discriminate]. apply setting_app in BS; [|cbn; intuition discriminate].
    apply rest_setting in BM; [|cbn; intuition discriminate]. apply rest_setting in BS; [|cbn; intuition discriminate]. auto. }
  pose proof LS as LN. apply call_some in LN as (NL & _). apply C276_spin in LS as (c & r & IC & IR & LU & LD).
  apply (own_value _ _ _ (get "charge_grid" env) _ NL) in IC; [|cbn; auto]. apply (own_value _ _ _ (get "reference_grid" env) _ NL) in IR; [|cbn; auto]. subst c r.
  assert (T : forall c r l, labelled_with ([("charge_grid", get "charge_grid" env); ("reference_grid", get "reference_grid" env)] ++ d) c r l -> labelled_with d c r l).
  { intros c r l X. eapply labelled_transfer; [exact X|]. intros k e v N1 N2 S. apply setting_app in S; [exact S|]. cbn. intuition congruence. }
  match type of H with match ?x with _ => _ end = _ => destruct x as [u|] eqn:U end; [|discriminate]. apply B in U as (U1 & U2 & U3 & U4).
  destruct (equal_spin (get "reference_grid" env)).
  - injection H as <- <- <- <-. split; [now apply T|]. split; [exact U1|]. split; [exact U2|]. split; [auto|]. intros f [->| ->]; auto.
  - match type of H with match ?x with _ => _ end = _ => destruct x as [v|] eqn:V end; [|discriminate]. apply B in V as (V1 & V2 & V3 & V4).
    injection H as <- <- <- <-. split; [now apply T|]. split; [exact U1|]. split; [exact U2|]. split; [auto|]. intros f [->| ->]; auto.
Qed.
Print Assumptions C276_spin_badelf.

(** ** C277: keywords nobody knows *)
Lemma NoDup_add_last (l : list string) j : ~ In j l -> NoDup l -> NoDup (l ++ [j]).
Proof.
  intros N H. induction l as [|x l IH]; cbn; [constructor; [intros []|constructor]|]. apply NoDup_cons_iff in H as [H0 H]. constructor.
  - intro I. apply in_app_iff in I as [I|[->|[]]]; [contradiction|]. apply N. now left.
  - apply IH; [|exact H]. intro I. apply N. now right.
Qed.
Lemma NoDup_drop_last (l : list string) j : NoDup (l ++ [j]) -> NoDup l.
Proof. intro H. apply NoDup_remove_1 in H. now rewrite app_nil_r in H. Qed.
Lemma lookup_extra k args j v : k <> j -> lookup k (args ++ [(j, v)]) = lookup k args.
Proof.
  intro N. unfold lookup. induction args as [|[i w] args IH]; cbn; [|destruct (String.eqb k i); [reflexivity|exact IH]].
  destruct (String.eqb_spec k j); [contradiction|reflexivity].
Qed.
Lemma fill_extra params args j v : ~ In j (map fst params) -> fill params (args ++ [(j, v)]) = fill params args.
Proof.
  induction params as [|[k d] t IH]; intro N; [reflexivity|]. cbn in N. cbn [fill]. rewrite lookup_extra by tauto. rewrite IH by tauto. reflexivity.
Qed.
Lemma repeated_extra (args : kwargs) j v : ~ In j (map fst args) -> repeated (map fst (args ++ [(j, v)])) = repeated (map fst args).
Proof.
  intro N. apply eq_true_iff_eq. rewrite <- !not_false_iff_true, !repeated_NoDup, map_app. cbn [map fst].
  split; intros H K; apply H; [now apply NoDup_add_last|now apply NoDup_drop_last in K].
Qed.
Lemma rest_app params a b : rest_of params (a ++ b) = rest_of params a ++ rest_of params b.
Proof. apply filter_app. Qed.
Lemma bader_extra args j v : ~ In j (map fst bader_params) -> ~ In j (map fst args) -> bader_init (args ++ [(j, v)]) = bader_init args.
Proof. intros N M. unfold bader_init, call. rewrite repeated_extra, fill_extra by assumption. reflexivity. Qed.

(** A keyword that is neither a setting of the labeler nor of Bader, such as a misspelt one, changes nothing and raises
    nothing; a keyword given to Badelf itself instead of its dictionary for the labeler is dropped as well. *)
Theorem C277_ignored : forall args k v, ~ In k (map fst args) ->
  (~ In k (map fst labeler_params) -> ~ In k (map fst bader_params) -> labeler_init (args ++ [(k, v)]) = labeler_init args) /\
  (~ In k (map fst badelf_params) -> badelf_init (args ++ [(k, v)]) = badelf_init args) /\
  (~ In k (map fst bader_params) -> bader_init (args ++ [(k, v)]) = bader_init args).
Proof.
  intros args k v N. split; [|split].
  - intros NL NB. unfold labeler_init, call. rewrite repeated_extra, fill_extra by assumption. destruct (repeated _); [reflexivity|].
    destruct (fill labeler_params args) as [env|]; [|reflexivity]. rewrite rest_app.
    assert (rest_of labeler_params [(k, v)] = [(k, v)]) as ->.
    { unfold rest_of. cbn [filter fst]. destruct (existsb (fun p => String.eqb k (fst p)) labeler_params) eqn:E; [|reflexivity].
      apply existsb_exists in E as (p & H & E). apply String.eqb_eq in E. destruct NL. rewrite E. now apply in_map. }
    rewrite app_assoc, bader_extra; [reflexivity|exact NB|].
    rewrite map_app, in_app_iff, rest_keys. intros [H|[H _]]; [|contradiction]. apply NB. cbn in H. decompose [or] H; subst; try contradiction; cbn; auto 10.
  - intros NB. unfold badelf_init, call. rewrite repeated_extra, fill_extra by assumption. reflexivity.
  - intro NB. now apply bader_extra.
Qed.
Print Assumptions C277_ignored.
Theorem C277_reported_refuted : exists args k v, In k (map fst labeler_settings) /\ ~ In k (map fst args) /\ badelf_init args <> None /\
  badelf_init (args ++ [(k, v)]) = badelf_init args /\ labeler_init (args ++ [(k, v)]) <> labeler_init args.
Proof.
  exists [("reference_grid", VGrid 1); ("charge_grid", VGrid 2)], "min_covalent_charge", (VNum 1).
  split; [cbn; auto 10|]. split; [cbn; intuition discriminate|]. split; [vm_compute; discriminate|]. split; [reflexivity|]. vm_compute. discriminate.
Qed.
Print Assumptions C277_reported_refuted.

(** ** C278: the greatest depth of metallic features *)
Theorem C278_no_effect : forall args v, ~ In "max_metal_depth" (map fst args) ->
  labeler_init (args ++ [("max_metal_depth", v)]) = labeler_init args.
Proof.
  intros args v N. unfold labeler_init, call. rewrite repeated_extra by exact N. destruct (repeated _); [reflexivity|].
  assert (R : rest_of labeler_params (args ++ [("max_metal_depth", v)]) = rest_of labeler_params args) by (rewrite rest_app; apply app_nil_r).
  rewrite R. clear R. destruct (fill labeler_params args) as [env|] eqn:F.
  - destruct (fill labeler_params (args ++ [("max_metal_depth", v)])) as [env'|] eqn:F'.
    + assert (G : forall k d, In (k, d) labeler_params -> k <> "max_metal_depth" -> get k env' = get k env).
      { intros k d I D. unfold get. rewrite (fill_get _ _ _ F labeler_NoDup k d I), (fill_get _ _ _ F' labeler_NoDup k d I), lookup_extra by exact D. reflexivity. }
      rewrite (G "charge_grid" None), (G "reference_grid" None), (G "vacuum_tol" (Some (VNum (1 # 1000)))) by (try discriminate; cbn; auto 30).
      assert (map (fun x => (fst x, get (fst x) env')) labeler_settings = map (fun x => (fst x, get (fst x) env)) labeler_settings) as ->; [|reflexivity].
      apply map_ext_in. intros [k d] I. cbn [fst]. rewrite (G k (Some d)); [reflexivity| |].
      * unfold labeler_params. apply in_or_app. right. apply in_or_app. left. apply in_map_iff. exists (k, d). auto.
      * intros ->. cbn in I. decompose [or] I; try discriminate; assumption.
    + exfalso. apply fill_none in F' as (k & I & NI). rewrite map_app, in_app_iff in NI. assert (fill labeler_params args = None) by (apply fill_none; exists k; tauto). congruence.
  - assert (fill labeler_params (args ++ [("max_metal_depth", v)]) = None) as ->; [|reflexivity]. apply fill_none. apply fill_none in F as (k & I & NI). exists k.
    split; [exact I|]. rewrite map_app, in_app_iff. intros [H|[H|[]]]; [contradiction|]. cbn in H. subst. cbn in I. decompose [or] I; try discriminate; assumption.
Qed.
Print Assumptions C278_no_effect.
Theorem C278_depth_used_refuted : exists args v w, v <> w /\
  labeler_init (args ++ [("max_metal_depth", v)]) = labeler_init (args ++ [("max_metal_depth", w)]) /\ labeler_init (args ++ [("max_metal_depth", v)]) <> None.
Proof.
  exists [("reference_grid", VGrid 1); ("charge_grid", VGrid 2)], (VNum 0), (VNum 1). split; [discriminate|]. split; [reflexivity|]. vm_compute. discriminate.
Qed.
Print Assumptions C278_depth_used_refuted.

(** ** Examples *)
Example C275_ex : match labeler_init [("charge_grid", VGrid 2); ("min_covalent_charge", VNum 1); ("method", VStr "ongrid"); ("reference_grid", VGrid 1); ("vacuum_tol", VBool true)] with
  | Some l => get "min_covalent_charge" (l_settings l) = VNum 1 /\ get "shared_shell_ratio" (l_settings l) = VNum (75 # 100) /\
      l_bader l = Bader (VGrid 2) (VGrid 1) (VStr "ongrid") (VNum (1 # 1000)) (VNum (1 # 1000)) (VBool false)
  | None => False end.
Proof. vm_compute. auto. Qed.
Example C275_ex_rejected : labeler_init [("charge_grid", VGrid 2); ("reference_grid", VGrid 1); ("use_reference_vacuum", VBool false)] = None /\
  labeler_init [("charge_grid", VGrid 2); ("reference_grid", VGrid 1); ("method", VStr "weigth")] = None.
Proof. split; reflexivity. Qed.
Definition ex_up (v : value) : value := match v with VGrid n => VGrid (10 + n) | _ => v end.
Definition ex_down (v : value) : value := match v with VGrid n => VGrid (20 + n) | _ => v end.
Example C276_ex : match spin_badelf_init ex_up ex_down (fun _ => false)
    [("reference_grid", VGrid 1); ("charge_grid", VGrid 2); ("method", VStr "badelf"); ("elf_labeler", VDict [("method", VStr "ongrid"); ("combine_shells", VBool false)])] with
  | Some ((lu, ld), (fu, fd)) => f_method fu = VStr "badelf" /\ f_method fd = VStr "badelf" /\ b_method (l_bader ld) = VStr "ongrid" /\
      get "combine_shells" (l_settings ld) = VBool false /\ l_charge lu = VGrid 12 /\ l_reference ld = VGrid 21
  | None => False end.
Proof. vm_compute. auto 10. Qed.
