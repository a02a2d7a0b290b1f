(** Proofs about configuration parsing and validation. *)
From Verif Require Import Base BaseFacts Arith64 PFloat MNetwork MText MActivity MConfig SConfig.
From Coq Require Import Reals Lra.
From Flocq Require Import IEEE754.BinarySingleNaN Core.Core.

Lemma text_eqb_spec x y : text_eqb x y = true <-> x = y.
Proof.
  revert y. induction x as [|c x IH]; intros [|d y]; cbn; try (split; congruence).
  rewrite andb_true_iff, IH, Ascii.eqb_eq. split; [intros [-> ->]; auto|intros [= -> ->]; auto].
Qed.

Section Entries.
Context {a : Arith} (trunc : F a -> option Z).
Notation D := (F a).

Lemma lookup_assoc (l : list (text * toml D)) key v : lookup l key = Some v <-> assoc l key v.
Proof.
  induction l as [|[k w] l IH]; cbn.
  - split; [discriminate|]. intros (b & c & E & _). destruct b; discriminate.
  - destruct (text_eqb k key) eqn:Ek.
    + apply text_eqb_spec in Ek. subst k. split.
      * intros [= ->]. exists [], l. auto.
      * intros ([|[k' w'] b] & c & E & H); cbn in *; [congruence|]. injection E as -> -> _. destruct H. auto.
    + assert (N : k <> key) by (intros ->; now rewrite (proj2 (text_eqb_spec key key) eq_refl) in Ek).
      rewrite IH. split.
      * intros (b & c & -> & H). exists ((k, w) :: b), c. split; auto. cbn. intros [?|?]; auto.
      * intros ([|[k' w'] b] & c & E & H); cbn in *; [congruence|]. injection E as -> -> ->. exists b, c. split; auto.
Qed.

Lemma at_key_entry (root : list (text * toml D)) s k v :
  at_key (at_key (Some (TTable root)) s) k = Some v <-> entry root s k v.
Proof.
  cbn [at_key]. unfold entry. split.
  - destruct (lookup root s) as [[]|] eqn:E; cbn [at_key]; try discriminate. intros H.
    exists l. split; now apply lookup_assoc.
  - intros (t & H1 & H2). apply lookup_assoc in H1, H2. rewrite H1. exact H2.
Qed.

Lemma whole_spec x z : whole trunc x = Some z <-> integral trunc x z.
Proof.
  unfold whole, integral, MConfig.in_int64. destruct (trunc x) as [y|].
  - destruct (_ && feq a (fofZ a y) x) eqn:E.
    + rewrite !andb_true_iff, !Z.leb_le in E. split.
      * intros [= ->]. intuition lia.
      * now intros [[= ->] _].
    + split; [discriminate|]. intros ([= ->] & H & R). rewrite H in E.
      rewrite andb_true_r in E. apply andb_false_iff in E. rewrite !Z.leb_gt in E. lia.
  - split; [discriminate|]. now intros [? _].
Qed.

Lemma value_int_spec n z : value_int trunc n = Some z <-> exists v, n = Some v /\ as_int trunc v z.
Proof.
  unfold value_int, as_int, as_integer, MConfig.in_int.
  destruct n as [[y|x|b|s|l|l|]|]; try (split; [discriminate|]; intros (v & [= <-] & H);
    repeat match goal with H : _ \/ _ |- _ => destruct H as [H|H] end; try destruct H as [? ?]; try destruct H as (? & ? & ?); discriminate).
  - split.
    + destruct (_ && _) eqn:E; [|discriminate]. rewrite andb_true_iff, !Z.leb_le in E. intros [= ->].
      eexists. split; [reflexivity|]. left. split; [reflexivity|lia].
    + intros (v & [= <-] & [[[= ->] H]|[(x & ? & _)|[[? _]|[? _]]]]); try discriminate.
      destruct (_ && _) eqn:E; auto. apply andb_false_iff in E. rewrite !Z.leb_gt in E. lia.
  - split.
    + destruct (whole trunc x) as [w|] eqn:W; [|discriminate]. apply whole_spec in W.
      destruct (_ && _) eqn:E; [|discriminate]. rewrite andb_true_iff, !Z.leb_le in E. intros [= ->].
      eexists. split; [reflexivity|]. right. left. exists x. split; [auto|split; [auto|lia]].
    + intros (v & [= <-] & [[? _]|[(x' & [= <-] & W & H)|[[? _]|[? _]]]]); try discriminate.
      apply whole_spec in W. rewrite W. destruct (_ && _) eqn:E; auto. apply andb_false_iff in E. rewrite !Z.leb_gt in E. lia.
  - split.
    + intros [= <-]. eexists. split; [reflexivity|]. destruct b; auto 6.
    + intros (v & [= <-] & [[? _]|[(x & ? & _)|[[[= ->] ->]|[[= ->] ->]]]]); try discriminate; auto.
Qed.

(** toml++ integers are 64 bit *)
Definition int64_node (n : option (toml D)) : Prop := forall z, n = Some (TInt z) -> (z < 2 ^ 63)%Z.

Lemma value_size_spec n z : int64_node n -> value_size trunc n = Some z <-> exists v, n = Some v /\ as_size trunc v z.
Proof.
  intros HN. unfold value_size, as_size, as_integer.
  destruct n as [[y|x|b|s|l|l|]|]; try (split; [discriminate|]; intros (v & [= <-] & H);
    repeat match goal with H : _ \/ _ |- _ => destruct H as [H|H] end; try destruct H as [? ?]; try destruct H as (? & ? & ?); discriminate).
  - specialize (HN y eq_refl). split.
    + destruct (Z.leb_spec 0 y); [|discriminate]. intros [= ->].
      eexists. split; [reflexivity|]. left. split; [reflexivity|lia].
    + intros (v & [= <-] & [[[= ->] H]|[(x & ? & _)|[[? _]|[? _]]]]); try discriminate.
      destruct (Z.leb_spec 0 z); auto. lia.
  - split.
    + destruct (whole trunc x) as [w|] eqn:W; [|discriminate]. apply whole_spec in W.
      destruct (Z.leb_spec 0 w); [|discriminate]. intros [= ->].
      eexists. split; [reflexivity|]. right. left. exists x. split; [auto|split; [auto|destruct W; lia]].
    + intros (v & [= <-] & [[? _]|[(x' & [= <-] & W & H)|[[? _]|[? _]]]]); try discriminate.
      apply whole_spec in W. rewrite W. destruct (Z.leb_spec 0 z); auto. lia.
  - split.
    + intros [= <-]. eexists. split; [reflexivity|]. destruct b; auto 6.
    + intros (v & [= <-] & [[? _]|[(x & ? & _)|[[[= ->] ->]|[[= ->] ->]]]]); try discriminate; auto.
Qed.

Lemma value_double_spec (n : option (toml D)) x : value_double n = Some x <-> exists v, n = Some v /\ as_double v x.
Proof.
  unfold value_double, as_double. destruct n as [[y|y|b|s|l|l|]|];
    try (split; [discriminate|]; intros (v & [= <-] & [?|(z & ? & _)]); discriminate).
  - split.
    + destruct (_ && _) eqn:E; [|discriminate]. rewrite andb_true_iff, !Z.leb_le in E. intros [= <-].
      eexists. split; [reflexivity|]. right. exists y. split; [auto|]. split; [lia|auto].
    + intros (v & [= <-] & [?|(z & [= ->] & H & ->)]); [discriminate|].
      destruct (_ && _) eqn:E; auto. apply andb_false_iff in E. rewrite !Z.leb_gt in E. lia.
  - split.
    + intros [= ->]. eexists. split; [reflexivity|]. auto.
    + intros (v & [= <-] & [[= ->]|(z & ? & _)]); [auto|discriminate].
Qed.

Lemma value_bool_spec (n : option (toml D)) b : value_bool n = Some b <-> exists v, n = Some v /\ as_bool v b.
Proof.
  unfold value_bool, as_bool. destruct n as [[y|y|c|s|l|l|]|];
    try (split; [discriminate|]; intros (v & [= <-] & [?|(z & ? & _)]); discriminate).
  - split.
    + intros [= <-]. eexists. split; [reflexivity|]. right. exists y. split; auto. rewrite negb_true_iff, Z.eqb_neq. tauto.
    + intros (v & [= <-] & [?|(z & [= ->] & H)]); [discriminate|]. f_equal.
      destruct b, (Z.eqb_spec z 0); cbn; auto; try (destruct H as [H1 H2]; exfalso; auto; fail).
      * destruct H as [H _]. exfalso. now apply H.
      * destruct H as [_ H]. discriminate (H n).
  - split.
    + intros [= ->]. eexists. split; [reflexivity|]. auto.
    + intros (v & [= <-] & [[= ->]|(z & ? & _)]); [auto|discriminate].
Qed.

(** From a value function to [specified]. *)
Lemma specified_intro {T} (root : list (text * toml D)) s k (val : option (toml D) -> option T) (usable : toml D -> T -> Prop) d :
  (forall x, val (at_key (at_key (Some (TTable root)) s) k) = Some x <->
     exists v, at_key (at_key (Some (TTable root)) s) k = Some v /\ usable v x) ->
  specified root s k usable d (set_if_specified d (val (at_key (at_key (Some (TTable root)) s) k))).
Proof.
  intros H. unfold specified, set_if_specified.
  destruct (val (at_key (at_key (Some (TTable root)) s) k)) as [x|] eqn:E.
  - left. destruct (proj1 (H x) eq_refl) as (v & E' & U). exists v. split; auto. now apply at_key_entry.
  - right. split; auto. intros v x Hv U. apply at_key_entry in Hv.
    discriminate (proj2 (H x) (ex_intro _ v (conj Hv U))).
Qed.
Lemma specified_opt_intro {T} (root : list (text * toml D)) s k (val : option (toml D) -> option T) (usable : toml D -> T -> Prop) :
  (forall x, val (at_key (at_key (Some (TTable root)) s) k) = Some x <->
     exists v, at_key (at_key (Some (TTable root)) s) k = Some v /\ usable v x) ->
  specified_opt root s k usable (val (at_key (at_key (Some (TTable root)) s) k)).
Proof.
  intros H. unfold specified_opt.
  destruct (val (at_key (at_key (Some (TTable root)) s) k)) as [x|] eqn:E.
  - left. destruct (proj1 (H x) eq_refl) as (v & E' & U). exists v, x. split; auto. now apply at_key_entry.
  - right. split; auto. intros v x Hv U. apply at_key_entry in Hv.
    discriminate (proj2 (H x) (ex_intro _ v (conj Hv U))).
Qed.

(** Bot arrays *)
Lemma push_back_spec {T} (of_int : Z -> T) (of_float : D -> res T) (ok : D -> T -> Prop) (root : list (text * toml D)) s k n d r :
  (forall x v, of_float x = Ok v -> ok x v) ->
  push_back_bot_array of_int of_float (at_key (at_key (Some (TTable root)) s) k) [] n d = Ok r ->
  bot_list root s k of_int ok n d r.
Proof.
  intros Hf E. unfold bot_list.
  assert (G : forall l acc r, for_each l (fun elem acc =>
        match elem with
        | TInt z => Ok (acc ++ [of_int z])
        | TFloat x => v <- of_float x ;; Ok (acc ++ [v])
        | _ => Ok acc
        end) acc = Ok r -> exists r', r = acc ++ r' /\ numbers of_int ok l r').
  { induction l as [|e l IH]; intros acc r' H; cbn [for_each] in H.
    - injection H as <-. exists []. rewrite app_nil_r. split; auto. constructor.
    - destruct e as [z|x|b|t|l'|l'|]; cbn [bind] in H;
        try (apply IH in H as (r0 & -> & HN); exists r0; split; auto; apply num_other; auto; discriminate).
      + apply IH in H as (r0 & -> & HN). exists (of_int z :: r0). rewrite <- app_assoc. split; auto. now constructor.
      + destruct (of_float x) as [v| | |] eqn:Ex; cbn [bind] in H; try discriminate.
        apply IH in H as (r0 & -> & HN). exists (v :: r0). rewrite <- app_assoc. split; auto. constructor; auto. }
  destruct (at_key (at_key (Some (TTable root)) s) k) as [v|] eqn:EK.
  - pose proof EK as EN. apply at_key_entry in EN. unfold push_back_bot_array in E.
    destruct v as [z|x|b|t|l|l|]; try (right; split; [|now injection E as <-]; intros l' H;
      apply at_key_entry in H; congruence).
    left. exists l. split; auto. apply G in E as (r' & -> & HN). exact HN.
  - right. unfold push_back_bot_array in E. injection E as <-. split; auto. intros l H. apply at_key_entry in H. congruence.
Qed.
End Entries.

(** ** Validation of doubles *)
Local Open Scope R_scope.
Lemma finite_compare (x y : Arith64.float) : is_finite x = true -> is_finite y = true ->
  (flt FA x y = true <-> B2R x < B2R y) /\ (fle FA x y = true <-> B2R x <= B2R y).
Proof.
  intros Hx Hy. cbn [flt fle FA]. rewrite Bltb_correct, Bleb_correct by auto. split.
  - destruct (Rlt_bool_spec (B2R x) (B2R y)); split; auto; try discriminate. lra.
  - destruct (Rle_bool_spec (B2R x) (B2R y)); split; auto; try discriminate. lra.
Qed.
Lemma small_const z r : IZR z = r -> (0 <= z <= 2 ^ 53)%Z -> B2R (fofZ FA z) = r /\ is_finite (fofZ FA z) = true.
Proof. intros <- H. destruct (b64_exact z H) as (? & ? & _). auto. Qed.
Lemma minus_one_const : B2R (fofZ FA (-1)) = -1 /\ is_finite (fofZ FA (-1)) = true.
Proof.
  assert (E : fofZ FA (-1) = Bopp (fofZ FA 1)).
  { apply B2SF_inj. vm_compute. reflexivity. }
  rewrite E. destruct (small_const 1 1 eq_refl ltac:(lia)) as [H1 H2]. rewrite B2R_Bopp, is_finite_Bopp, H1. auto.
Qed.

Lemma flt_above (x c : Arith64.float) r : B2R c = r -> is_finite c = true -> flt FA c x = true <-> above x r.
Proof.
  intros <- Hc. destruct (is_finite x) eqn:Hx.
  - destruct (finite_compare c x Hc Hx) as [H _]. rewrite H. destruct x; try discriminate; reflexivity.
  - destruct x as [s|s| |s mm e Hm]; try discriminate; cbn [above].
    + destruct c as [s'|s'| |s' m' e' H']; try discriminate; destruct s; try destruct s'; cbn; split; congruence.
    + destruct c as [s'|s'| |s' m' e' H']; try discriminate; try destruct s'; cbn; split; congruence || tauto.
Qed.
Lemma fle_at_least (x c : Arith64.float) r : B2R c = r -> is_finite c = true -> fle FA c x = true <-> at_least x r.
Proof.
  intros <- Hc. destruct (is_finite x) eqn:Hx.
  - destruct (finite_compare c x Hc Hx) as [_ H]. rewrite H. destruct x; try discriminate; reflexivity.
  - destruct x as [s|s| |s mm e Hm]; try discriminate; cbn [at_least].
    + destruct c as [s'|s'| |s' m' e' H']; try discriminate; destruct s; try destruct s'; cbn; split; congruence.
    + destruct c as [s'|s'| |s' m' e' H']; try discriminate; try destruct s'; cbn; split; congruence || tauto.
Qed.
Lemma fle_at_most (x c : Arith64.float) r : B2R c = r -> is_finite c = true -> fle FA x c = true <-> at_most x r.
Proof.
  intros <- Hc. destruct (is_finite x) eqn:Hx.
  - destruct (finite_compare x c Hx Hc) as [_ H]. rewrite H. destruct x; try discriminate; reflexivity.
  - destruct x as [s|s| |s mm e Hm]; try discriminate; cbn [at_most].
    + destruct c as [s'|s'| |s' m' e' H']; try discriminate; destruct s; try destruct s'; cbn; split; congruence.
    + destruct c as [s'|s'| |s' m' e' H']; try discriminate; try destruct s'; cbn; split; congruence || tauto.
Qed.

Lemma g_zero_above (x : Arith64.float) : g_zero (a:=FA) x = true <-> above x 0.
Proof. apply flt_above; apply (small_const 0 0 eq_refl); lia. Qed.
Lemma geq_zero_at_least (x : Arith64.float) : geq_zero (a:=FA) x = true <-> at_least x 0.
Proof. apply fle_at_least; apply (small_const 0 0 eq_refl); lia. Qed.

(** A sequence of checks succeeds when all conditions hold and throws otherwise. *)
Lemma check_bind b (k : res unit) (P : Prop) :
  (k = Ok tt /\ P) \/ (k = Throw ExRuntime /\ ~ P) ->
  ((_ <- check b ;; k) = Ok tt /\ (b = true /\ P)) \/ ((_ <- check b ;; k) = Throw ExRuntime /\ ~ (b = true /\ P)).
Proof. destruct b; cbn [check bind]; intros [[-> H]|[-> H]]; [left|right|right|right]; split; intuition congruence. Qed.
Lemma check_last b : (check b = Ok tt /\ b = true) \/ (check b = Throw ExRuntime /\ ~ b = true).
Proof. destruct b; cbn; auto. Qed.

Definition verdict (r : res unit) (P : Prop) : Prop := (r = Ok tt /\ P) \/ (r = Throw ExRuntime /\ ~ P).
Lemma verdict_iff r P Q : (P <-> Q) -> verdict r P -> verdict r Q.
Proof. unfold verdict. tauto. Qed.

Lemma validate_activity_verdict (st : ad_settings Arith64.float) : verdict (validate_activity (a:=FA) st) (activity_in_range st).
Proof.
  unfold validate_activity, verdict.
  eapply verdict_iff; [|unfold verdict; repeat apply check_bind; apply check_last].
  unfold activity_in_range.
  rewrite !g_zero_above, !geq_zero_at_least, andb_true_iff, !Nat.leb_le, Z.leb_le.
  rewrite (flt_above (gamma st) (fofZ FA 2) 2) by (apply (small_const 2 2 eq_refl); lia).
  rewrite (fle_at_least (covariance_factor st) (fofZ FA (-1)) (-1)) by apply minus_one_const.
  rewrite (fle_at_most (covariance_factor st) (fofZ FA 1) 1) by (apply (small_const 1 1 eq_refl); lia).
  tauto.
Qed.

Lemma validate_verdict (o : options Arith64.float) : matching o -> (0 <= start_numbering_from (opt_output o))%Z ->
  verdict (validate_settings (a:=FA) o) (options_in_range o).
Proof.
  intros HM HN. unfold validate_settings, options_in_range. unfold matching in HM.
  apply verdict_iff with (P := ((0 <? start_output (opt_output o))%Z = true /\
    ((0 <=? start_numbering_from (opt_output o))%Z = true /\ settings_in_range (opt_settings o)))).
  { rewrite Z.ltb_lt, Z.leb_le. tauto. }
  apply check_bind. apply check_bind.
  destruct o as [k ms seed out ss nt]. cbn [opt_model opt_settings opt_output] in *.
  destruct k, ss as [d|st|i|d]; try contradiction; cbn [get_degroot get_activity_driven get_inertial get_deffuant bind settings_in_range].
  - eapply verdict_iff; [|apply check_last]. apply geq_zero_at_least.
  - apply validate_activity_verdict.
  - eapply verdict_iff; [|apply check_bind; apply validate_activity_verdict]. rewrite geq_zero_at_least. tauto.
  - apply verdict_iff with (P := (g_zero (a:=FA) (df_homophily_threshold d) = true /\
      (fle FA (fofZ FA 0) (df_mu d) && fle FA (df_mu d) (fofZ FA 1) = true /\
       ((0 <? df_dim d)%Z = true /\ (df_use_binary_vector d = false -> df_dim d = 1%Z))))).
    + rewrite g_zero_above, andb_true_iff, Z.ltb_lt.
      rewrite (fle_at_least (df_mu d) (fofZ FA 0) 0) by (apply (small_const 0 0 eq_refl); lia).
      rewrite (fle_at_most (df_mu d) (fofZ FA 1) 1) by (apply (small_const 1 1 eq_refl); lia). tauto.
    + do 3 apply check_bind. change (F FA) with Arith64.float. destruct (df_use_binary_vector d); cbn [negb].
      * left. split; [reflexivity|]. intros X. discriminate X.
      * destruct (check_last (df_dim d =? 1)%Z) as [[E H]|[E H]]; rewrite Z.eqb_eq in H; [left|right]; split; auto.
Qed.
