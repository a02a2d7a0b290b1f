(** Proofs: reservoir sampling (A-ExpJ) has the law of algorithm A-Res, for any number of slots. *)
From Verif Require Import Base BaseFacts Arith64 MRandom SRandom PRandom RFacts PReservoir SProb PProb PProb2.
From Coq Require Import Permutation Reals Lra.
From Coquelicot Require Import Coquelicot.
Local Open Scope R_scope.

Section ExpJ.
Variable q : PQ EA.
Variable w : nat -> R.
Variable k : nat.
Hypothesis Hq : pq_bag q.
Hypothesis Hk : (1 <= k)%nat.

Definition gk (h : pq q) : Prop :=
  List.Forall (fun x => exists r, snd x = Fin r /\ 0 < r < 1) (pq_items q h).
Definition top_key (h : pq q) : R := match pq_top q h with Some (_, Fin T) => T | _ => 0 end.

Lemma gk_top h : gk h -> length (pq_items q h) = k -> exists c T, pq_top q h = Some (c, Fin T) /\ 0 < T < 1.
Proof using Hq Hk.
  intros G L. destruct (top_some q Hq h) as ([c key] & E).
  { intros E0. rewrite E0 in L. cbn in L. lia. }
  unfold gk in G. rewrite List.Forall_forall in G. destruct (G (c, key)) as (T & ET & HT).
  { destruct Hq as (_ & _ & _ & B). eapply Permutation_in; [apply Permutation_sym, (B h _ E)|now left]. }
  cbn in ET. exists c, T. now rewrite E, ET.
Qed.
Lemma items_swap h x y : pq_top q h = Some y -> Permutation (y :: pq_items q (pq_push q x (pq_pop q h))) (x :: pq_items q h).
Proof using Hq.
  intros E. destruct Hq as (_ & B2 & _ & B4). eapply Permutation_trans; [apply perm_skip, B2|].
  eapply Permutation_trans; [apply perm_swap|]. apply perm_skip. apply Permutation_sym. now apply B4.
Qed.
Lemma gk_swap h i r y : gk h -> pq_top q h = Some y -> 0 < r < 1 -> gk (pq_push q (i, Fin r) (pq_pop q h)).
Proof using Hq.
  intros G E Hr. unfold gk in *. rewrite List.Forall_forall in *. intros x Hx. pose proof (items_swap h (i, Fin r) y E) as P.
  assert (In x ((i, Fin r) :: pq_items q h)) as [<-|H].
  { eapply Permutation_in; [exact P|now right]. } { exists r. auto. } now apply G.
Qed.
Lemma len_swap h x y : pq_top q h = Some y -> length (pq_items q h) = k -> length (pq_items q (pq_push q x (pq_pop q h))) = k.
Proof using Hq. intros E L. pose proof (Permutation_length (items_swap h x y E)) as P. cbn [length] in P. injection P as P. rewrite <- L. exact P. Qed.

(** the jump process on real numbers; a top key of 0 is passed at once *)
Fixpoint jumpk (m idx : nat) (h : pq q) (X : R) (us : list R) : pq q :=
  match m with
  | O => h
  | S m' =>
      if Rle_dec (X - w idx) 0 then
        match us with
        | u1 :: u2 :: us' =>
            let t := pw (w idx) (top_key h) in
            let h' := pq_push q (idx, Fin (Rpower (u1 * (1 - t) + t) (1 / w idx))) (pq_pop q h) in
            jumpk m' (S idx) h' (ln u2 / ln (top_key h')) us'
        | _ => h
        end
      else jumpk m' (S idx) h (X - w idx) us
  end.

Variable f : pq q -> R.

Lemma res_key_pos idx u : 0 < w idx -> res_key (w idx) u = Fin (Rpower u (1 / w idx)).
Proof using. intros H. unfold res_key. destruct (Req_EM_T (w idx) 0); [lra|reflexivity]. Qed.

Lemma beats T u p : 0 < T < 1 -> 0 < u -> 0 < p -> (T < Rpower u (1 / p) <-> Rpower T p < u).
Proof using.
  intros HT Hu Hp. split; intros H.
  - replace u with (Rpower (Rpower u (1 / p)) p).
    + apply Rlt_Rpower_l; lra.
    + rewrite Rpower_mult. replace (1 / p * p) with 1 by (field; lra). now apply Rpower_1.
  - replace T with (Rpower (Rpower T p) (1 / p)).
    + apply Rlt_Rpower_l; [apply Rdiv_lt_0_compat; lra|]. split; [apply exp_pos|exact H].
    + rewrite Rpower_mult. replace (p * (1 / p)) with 1 by (field; lra). apply Rpower_1; lra.
Qed.

Lemma top_key_eq h c T : pq_top q h = Some (c, Fin T) -> top_key h = T.
Proof using. intros E. unfold top_key. now rewrite E. Qed.

(** integrals over subintervals and affine images *)
Lemma split_const (hr : R -> R) (ex : list R) (t c v : R) : 0 < t < 1 -> (forall u, 0 < u < t -> ~ In u ex -> hr u = c) -> is_RInt hr 0 1 v ->
  exists A : R, is_RInt (fun u => hr (u * (1 - t) + t)) 0 1 A /\ v = t * c + (1 - t) * A.
Proof using.
  intros Ht Hc HI.
  assert (E0 : is_RInt hr 0 t (t * c)).
  { apply (is_RInt_fin (fun _ => c) hr ex 0 t); [lra| |].
    - intros x Hx Nx. symmetry. now apply Hc.
    - pose proof (is_RInt_const 0 t c) as H. unfold scal in H. cbn in H. unfold mult in H. cbn in H. now replace ((t - 0) * c) with (t * c) in H by ring. }
  assert (E1 : is_RInt hr t 1 (v - t * c)).
  { pose proof (is_RInt_Chasles (V:=R_NormedModule) hr t 0 1 _ _ (is_RInt_swap _ _ _ _ E0) HI) as H.
    unfold plus, opp in H. cbn in H. now replace (- (t * c) + v) with (v - t * c) in H by ring. }
  exists ((v - t * c) / (1 - t)). split; [|field; lra].
  apply (is_RInt_ext (fun u => scal (/ (1 - t)) (scal (1 - t) (hr ((1 - t) * u + t))))).
  - intros x _. unfold scal. cbn. unfold mult. cbn. rewrite <- Rmult_assoc, Rinv_l, Rmult_1_l by lra. f_equal. ring.
  - replace ((v - t * c) / (1 - t)) with (scal (/ (1 - t)) (v - t * c)) by (unfold scal; cbn; unfold mult; cbn; field; lra).
    apply (is_RInt_scal (V:=R_NormedModule)). apply (is_RInt_comp_lin (V:=R_NormedModule)).
    replace ((1 - t) * 0 + t) with t by ring. replace ((1 - t) * 1 + t) with 1 by ring. exact E1.
Qed.

Theorem jumpk_law m : forall idx h v e, gk h -> length (pq_items q h) = k -> (forall j, (idx <= j < idx + m)%nat -> 0 <= w j) ->
  expects m (fun us => f (res_run q w m idx h us)) v ->
  expects (S (2 * m + e)) (fun us => match us with [] => 0 | u :: us' => f (jumpk m idx h (ln u / ln (top_key h)) us') end) v.
Proof using Hq Hk.
  induction m as [|m IH]; intros idx h v e G L HN HE.
  - cbn in HE. subst v. apply (expects_ext _ _ (fun _ => f h)); [|apply expects_const]. intros [|u us] HL HU; [discriminate|reflexivity].
  - destruct (gk_top h G L) as (c & T & ET & HT). rewrite (top_key_eq h c T ET).
    assert (HlT : ln T < 0) by (rewrite <- ln_1; apply ln_increasing; lra).
    destruct HE as (hr & ex & HR1 & HR2).
    destruct (HN idx ltac:(lia)) as [Hw|Hw].
    + set (t := Rpower T (w idx)). assert (Ht : 0 < t < 1) by (apply Rpower_lt1; auto).
      assert (Hkeep : forall u, 0 < u <= t -> ~ In u ex -> expects m (fun us => f (res_run q w m (S idx) h us)) (hr u)).
      { intros u Hu Nu. specialize (HR1 u ltac:(lra) Nu). apply (expects_ext _ _ _ _) with (2 := HR1). intros us _ _. cbn [res_run].
        rewrite ET, (res_key_pos idx u Hw). cbn [eltb]. unfold Rltb. destruct (Rlt_dec T (Rpower u (1 / w idx))) as [B|]; [|reflexivity].
        apply (proj1 (beats T u (w idx) HT ltac:(lra) Hw)) in B. fold t in B. lra. }
      assert (Hrep : forall u, t < u < 1 -> ~ In u ex -> expects m (fun us => f (res_run q w m (S idx) (pq_push q (idx, Fin (Rpower u (1 / w idx))) (pq_pop q h)) us)) (hr u)).
      { intros u Hu Nu. specialize (HR1 u ltac:(lra) Nu). apply (expects_ext _ _ _ _) with (2 := HR1). intros us _ _. cbn [res_run].
        rewrite ET, (res_key_pos idx u Hw). cbn [eltb]. unfold Rltb. destruct (Rlt_dec T (Rpower u (1 / w idx))) as [B|B]; [reflexivity|].
        exfalso. apply B. apply (proj2 (beats T u (w idx) HT ltac:(lra) Hw)). exact (proj1 Hu). }
      destruct (off_list ex 0 t ltac:(lra)) as (p0 & Hp0 & Np0).
      set (cc := hr p0). assert (Hcc : forall u, 0 < u < t -> ~ In u ex -> hr u = cc).
      { intros u Hu Nu. apply (expects_unique _ _ _ _ (Hkeep u ltac:(lra) Nu) (Hkeep p0 ltac:(lra) Np0)). }
      destruct (split_const hr ex t cc v Ht Hcc HR2) as (A & HA & Ev).
      destruct (IH (S idx) h cc (S (S e)) G L ltac:(intros; apply HN; lia) (Hkeep p0 ltac:(lra) Np0)) as (hI & exI & HI1 & HI2).
      rewrite (top_key_eq h c T ET) in HI1.
      exists (fun u => if Rlt_dec u t then hI (u / t) else A), (map (fun p => p * t) exI). split.
      * intros u Hu Nu. destruct (Rlt_dec u t) as [Hlt|Hge].
        -- assert (Hv : 0 < u / t < 1).
           { split; [apply Rdiv_lt_0_compat; lra|]. apply (Rmult_lt_reg_r t); [lra|]. unfold Rdiv. rewrite Rmult_assoc, Rinv_l by lra. lra. }
           assert (Nv : ~ In (u / t) exI). { intros Hi. apply Nu. apply in_map_iff. exists (u / t). split; [field; lra|exact Hi]. }
           specialize (HI1 (u / t) Hv Nv). replace (2 * S m + e)%nat with (2 * m + S (S e))%nat by lia.
           apply (expects_ext _ _ _ _) with (2 := HI1). intros us _ _. cbn [jumpk].
           destruct (Rle_dec (ln u / ln T - w idx) 0) as [Hc|Hc].
           { apply jump_threshold in Hc; [|lra|auto]. unfold t in Hlt. lra. }
           f_equal. f_equal.
           unfold Rdiv at 3. rewrite ln_mult, ln_Rinv by (try apply Rinv_0_lt_compat; lra).
           unfold t, Rpower. rewrite ln_exp. field. lra.
        -- replace (2 * S m + e)%nat with (S (S (2 * m + e))) by lia.
           exists (fun u1 => hr (u1 * (1 - t) + t)), (map (fun p => (p - t) / (1 - t)) ex). split; [|exact HA].
           intros u1 Hu1 Nu1.
           assert (Nv : ~ In (u1 * (1 - t) + t) ex). { intros Hi. apply Nu1. apply in_map_iff. exists (u1 * (1 - t) + t). split; [field; lra|exact Hi]. }
           set (r' := Rpower (u1 * (1 - t) + t) (1 / w idx)).
           assert (Hr' : 0 < r' < 1). { apply Rpower_lt1; [split; nra|]. apply Rdiv_lt_0_compat; lra. }
           set (h' := pq_push q (idx, Fin r') (pq_pop q h)).
           apply (expects_ext _ _ _ _) with (2 := IH (S idx) h' _ e (gk_swap h idx r' _ G ET Hr') (len_swap h _ _ ET L) ltac:(intros; apply HN; lia) (Hrep (u1 * (1 - t) + t) ltac:(split; nra) Nv)).
           intros [|u2 us] HL HU; [discriminate|]. cbn [jumpk].
           destruct (Rle_dec (ln u / ln T - w idx) 0) as [Hc|Hc].
           ++ rewrite (top_key_eq h c T ET). unfold pw. destruct (Rle_dec T 0); [lra|]. fold t. fold r'. fold h'. reflexivity.
           ++ exfalso. apply Hc. apply jump_threshold; [lra|auto|]. unfold t in Hge. lra.
      * rewrite Ev. apply (is_RInt_Chasles (V:=R_NormedModule)) with t.
        -- apply (is_RInt_ext (fun y => scal t (scal (/ t) (hI (/ t * y + 0))))).
           { intros x Hx. rewrite Rmin_left, Rmax_right in Hx by lra. destruct (Rlt_dec x t) as [_|]; [|lra].
             unfold scal. cbn. unfold mult. cbn. rewrite <- Rmult_assoc, Rinv_r, Rmult_1_l by lra. f_equal. unfold Rdiv. ring. }
           apply (is_RInt_scal (V:=R_NormedModule)). apply (is_RInt_comp_lin (V:=R_NormedModule)).
           replace (/ t * 0 + 0) with 0 by ring. replace (/ t * t + 0) with 1 by (field; lra). exact HI2.
        -- apply (is_RInt_ext (fun _ => A)).
           { intros x Hx. rewrite Rmin_left, Rmax_right in Hx by lra. destruct (Rlt_dec x t); [lra|reflexivity]. }
           apply (is_RInt_const t 1 A).
    + assert (Hkeep : forall u, 0 < u < 1 -> ~ In u ex -> expects m (fun us => f (res_run q w m (S idx) h us)) (hr u)).
      { intros u Hu Nu. specialize (HR1 u ltac:(lra) Nu). apply (expects_ext _ _ _ _) with (2 := HR1). intros us _ _. cbn [res_run].
        rewrite ET. unfold res_key. destruct (Req_EM_T (w idx) 0); [|lra]. cbn [eltb]. unfold Rltb. destruct (Rlt_dec T 0); [lra|reflexivity]. }
      destruct (off_list ex 0 1 ltac:(lra)) as (p0 & Hp0 & Np0).
      assert (Ev : hr p0 = v).
      { assert (H : is_RInt hr 0 1 (hr p0)).
        { apply (is_RInt_fin (fun _ => hr p0) hr ex 0 1); [lra| |apply is_RInt_const01]. intros x Hx Nx.
          apply (expects_unique _ _ _ _ (Hkeep p0 Hp0 Np0) (Hkeep x Hx Nx)). }
        rewrite <- (is_RInt_unique _ _ _ _ H). now apply is_RInt_unique. }
      pose proof (Hkeep p0 Hp0 Np0) as HE. rewrite Ev in HE.
      destruct (IH (S idx) h v (S (S e)) G L ltac:(intros; apply HN; lia) HE) as (hI & exI & HI1 & HI2).
      rewrite (top_key_eq h c T ET) in HI1.
      exists hI, exI. split; auto.
      intros u Hu Nu. specialize (HI1 u Hu Nu). replace (2 * S m + e)%nat with (2 * m + S (S e))%nat by lia.
      apply (expects_ext _ _ _ _) with (2 := HI1). intros us _ _. cbn [jumpk]. rewrite <- Hw, Rminus_0_r.
      destruct (Rle_dec (ln u / ln T) 0) as [Hc|Hc]; [|reflexivity].
      assert (Hlu : ln u < 0) by (rewrite <- ln_1; apply ln_increasing; lra).
      exfalso. assert (0 < ln u / ln T); [|lra]. replace (ln u / ln T) with ((- ln u) / (- ln T)) by (field; lra). apply Rdiv_lt_0_compat; lra.
Qed.

(** a zero key on top, the next weight positive *)
Lemma jumpk_law0 m idx h c v e : pq_top q h = Some (c, Fin 0) -> gk (pq_pop q h) -> length (pq_items q h) = k ->
  (forall j, (idx <= j < idx + m)%nat -> 0 <= w j) -> ((0 < m)%nat -> 0 < w idx) ->
  expects m (fun us => f (res_run q w m idx h us)) v ->
  expects (S (2 * m + e)) (fun us => match us with [] => 0 | u :: us' => f (jumpk m idx h 0 us') end) v.
Proof using Hq Hk.
  intros ET G L HN Hw HE. destruct m as [|m].
  - cbn in HE. subst v. apply (expects_ext _ _ (fun _ => f h)); [|apply expects_const]. intros [|u us] HL HU; [discriminate|reflexivity].
  - specialize (Hw ltac:(lia)). exists (fun _ => v), nil. split; [|apply is_RInt_const01]. intros u0 Hu0 _.
    destruct HE as (hr & ex & HR1 & HR2). replace (2 * S m + e)%nat with (S (S (2 * m + e))) by lia.
    exists hr, ex. split; auto. intros u1 Hu1 Nu1. specialize (HR1 u1 Hu1 Nu1). set (r := Rpower u1 (1 / w idx)).
    assert (Hr : 0 < r < 1) by (apply Rpower_lt1; auto; apply Rdiv_lt_0_compat; lra).
    assert (HE : expects m (fun us => f (res_run q w m (S idx) (pq_push q (idx, Fin r) (pq_pop q h)) us)) (hr u1)).
    { apply (expects_ext _ _ _ _) with (2 := HR1). intros us _ _. cbn [res_run].
      rewrite ET, (res_key_pos idx u1 Hw). fold r. cbn [eltb]. unfold Rltb. destruct (Rlt_dec 0 r); [reflexivity|lra]. }
    assert (G' : gk (pq_push q (idx, Fin r) (pq_pop q h))).
    { unfold gk. rewrite List.Forall_forall. intros x Hx. destruct Hq as (_ & B2 & _). apply (Permutation_in _ (B2 _ _)) in Hx as [<-|Hx]; [exists r; auto|].
      unfold gk in G. rewrite List.Forall_forall in G. now apply G. }
    apply (expects_ext _ _ _ _) with (2 := jumpk_law m (S idx) _ _ e G' (len_swap h _ _ ET L) ltac:(intros; apply HN; lia) HE).
    intros [|u2 us] HL HU; [discriminate|]. cbn [jumpk]. destruct (Rle_dec (0 - w idx) 0); [|lra].
    rewrite (top_key_eq h c 0 ET). unfold pw. destruct (Rle_dec 0 0); [|lra].
    replace (u1 * (1 - 0) + 0) with u1 by ring. reflexivity.
Qed.
End ExpJ.
