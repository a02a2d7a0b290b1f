(** Proofs about the network generators. *)
From Verif Require Import Base BaseFacts Arith64 MRandom SRandom PRandom MNetwork SNetwork MNetGen.
From Coq Require Import Permutation Sorting.Sorted.

(** [k] successive uniform draws from (0,1) starting in generator state [s]. *)
Fixpoint draws {a : Arith} (g : Rng a) (k : nat) (s : rst g) : list (F a) :=
  match k with
  | 0 => []
  | S k' => fst (r_real g (f0 a) (f1 a) s) :: draws g k' (snd (r_real g (f0 a) (f1 a) s))
  end.
Fixpoint draws_st {a : Arith} (g : Rng a) (k : nat) (s : rst g) : rst g :=
  match k with 0 => s | S k' => draws_st g k' (snd (r_real g (f0 a) (f1 a) s)) end.
(** Sum in index order, starting from 0.0. *)
Definition fsum {a : Arith} (l : list (F a)) : F a := fold_left (fadd a) l (f0 a).

Section P.
Context {a : Arith} (g : Rng a).

Lemma draws_length k s : length (draws g k s) = k.
Proof. revert s; induction k; intros s; cbn; auto. Qed.

Lemma draws_S k s : draws g (S k) s = draws g k s ++ [fst (r_real g (f0 a) (f1 a) (draws_st g k s))].
Proof. revert s; induction k as [|k IH]; intros s; [reflexivity|]. cbn [draws draws_st] in *. now rewrite IH. Qed.
Lemma draws_st_S k s : draws_st g (S k) s = snd (r_real g (f0 a) (f1 a) (draws_st g k s)).
Proof. revert s; induction k as [|k IH]; intros s; [reflexivity|]. cbn [draws_st] in *. now rewrite IH. Qed.

Lemma fsum_snoc (l : list (F a)) x : fsum (l ++ [x]) = fadd a (fsum l) x.
Proof. unfold fsum. now rewrite fold_left_app. Qed.

Lemma draw_weights_eq m weights s : length weights = m ->
  draw_weights g m weights (f0 a) s = Ok (draws g m s, fsum (draws g m s), draws_st g m s).
Proof.
  intros HL. unfold draw_weights.
  match goal with |- ?m0 = _ => assert (G : okp m0 (fun r => r = (draws g m s, fsum (draws g m s), draws_st g m s))) end.
  { eapply okp_impl.
    - apply (for_n_inv _ (fun j st => st = (draws g j s ++ skipn j weights, fsum (draws g j s), draws_st g j s))).
      + reflexivity.
      + intros j st Hj ->. rewrite draws_S, draws_st_S.
        destruct (r_real g (f0 a) (f1 a) (draws_st g j s)) as [u s1]. cbn [fst snd].
        assert (Hlen : length (draws g j s ++ skipn j weights) = m)
          by (rewrite app_length, draws_length, skipn_length; lia).
        rewrite vset_ok by lia. cbn [bind].
        assert (Ev : upd (draws g j s ++ skipn j weights) j u = draws g j s ++ u :: skipn (S j) weights).
        { replace (upd (draws g j s ++ skipn j weights) j u)
            with (upd (draws g j s ++ skipn j weights) (length (draws g j s) + 0) u)
            by (rewrite draws_length, Nat.add_0_r; auto).
          rewrite upd_app_r. f_equal. destruct (skipn j weights) as [|y t] eqn:E.
          - pose proof (skipn_length j weights) as SL. rewrite E in SL. cbn in SL. lia.
          - cbn [upd]. f_equal. assert (G : forall (l : list (F a)) j, skipn (S j) l = skipn 1 (skipn j l)).
            { clear. induction l as [|x l IH]; intros [|j]; auto. exact (IH j). }
            rewrite G, E. reflexivity. }
        rewrite Ev. unfold vget. rewrite nth_error_app2 by (rewrite draws_length; lia).
        rewrite draws_length, Nat.sub_diag. cbn. rewrite fsum_snoc, <- app_assoc. reflexivity.
    - intros st ->. cbn. rewrite skipn_all2 by lia. now rewrite app_nil_r. }
  apply okp_ex in G as (x & E & ->). exact E.
Qed.

Lemma normalize_eq m norm weights : length weights = m ->
  normalize m norm weights = Ok (map (fun w => fdiv a w norm) weights).
Proof.
  intros HL. unfold normalize.
  match goal with |- ?m0 = _ => assert (G : okp m0 (fun r => r = map (fun w => fdiv a w norm) weights)) end.
  { eapply okp_impl.
    - apply (for_n_inv _ (fun j ws => ws = map (fun w => fdiv a w norm) (firstn j weights) ++ skipn j weights)).
      + reflexivity.
      + intros j ws Hj ->. destruct (nth_error weights j) as [w|] eqn:Ew.
        2: { apply nth_error_None in Ew. lia. }
        assert (Hf : length (map (fun w => fdiv a w norm) (firstn j weights)) = j)
          by (rewrite map_length, firstn_length; lia).
        assert (Es : skipn j weights = w :: skipn (S j) weights).
        { clear -Ew. revert j Ew. induction weights; intros [|j] H; cbn in *; try discriminate.
          - now inversion H. - now apply IHweights. }
        rewrite Es. unfold vget. rewrite nth_error_app2 by lia. rewrite Hf, Nat.sub_diag. cbn [nth_error bind].
        rewrite vset_ok by (rewrite app_length, Hf; cbn; lia). cbn [okp].
        replace (upd (map (fun w => fdiv a w norm) (firstn j weights) ++ w :: skipn (S j) weights) j (fdiv a w norm))
          with (upd (map (fun w => fdiv a w norm) (firstn j weights) ++ w :: skipn (S j) weights) 
             (length (map (fun w => fdiv a w norm) (firstn j weights)) + 0) (fdiv a w norm))
          by (rewrite Hf, Nat.add_0_r; auto).
        rewrite upd_app_r. cbn [upd]. rewrite (firstn_S_nth_error _ _ _ _ Ew), map_app, <- app_assoc. reflexivity.
    - intros ws ->. now rewrite firstn_all2, skipn_all2, app_nil_r by lia. }
  apply okp_ex in G as (x & E & ->). exact E.
Qed.

Lemma all_indices_eq n : all_indices n = Ok (seq 0 n).
Proof.
  unfold all_indices.
  match goal with |- ?m0 = _ => assert (G : okp m0 (fun r => r = seq 0 n)) end.
  { eapply okp_impl.
    - apply (for_n_inv _ (fun j b => b = seq 0 j ++ repeat 0 (n - j))).
      + cbn. now rewrite Nat.sub_0_r.
      + intros j b Hj ->. rewrite vset_ok by (rewrite app_length, seq_length, repeat_length; lia). cbn [okp].
        replace (n - j) with (S (n - S j)) by lia. cbn [repeat].
        replace j with (length (seq 0 j) + 0) at 3 by (rewrite seq_length; lia).
        rewrite upd_app_r. cbn [upd]. rewrite seq_S, <- app_assoc. reflexivity.
    - intros b ->. now rewrite Nat.sub_diag, app_nil_r. }
  apply okp_ex in G as (x & E & ->). exact E.
Qed.

Context {A : Type} (d : A).
Notation net := (network A (F a)).

(** what one agent's row looks like after generation *)
Definition row_drawn (self : bool) (i : nat) (out : list nat) (ns : list nat) (ws : list (F a)) : Prop :=
  ns = out ++ (if self then [i] else []) /\
  exists s, ws = map (fun w => fdiv a w (fsum (draws g (length ns) s))) (draws g (length ns) s).

Hypothesis Hs : sample_ok g.

Lemma gen_n_connections_ok n k self s (P : nat -> list nat -> Prop) :
  (forall i s, i < n -> okp (draw_unique_k_from_n g (Some i) k n [] s) (fun r => P i (fst r))) ->
  exists G s', generate_n_connections g d n k self s = Ok (G, s') /\
    agents G = repeat d n /\ length (neigh G) = n /\ length (wts G) = n /\ dir G = Incoming /\
    forall i, i < n -> exists out, P i out /\ row_drawn self i out (nth i (neigh G) []) (nth i (wts G) []).
Proof.
  intros HP. unfold generate_n_connections.
  match goal with |- context[bind (for_n n ?b ?st) _] =>
    assert (G : okp (for_n n b st) (fun r => let '(nl, wl, _) := r in
      length nl = n /\ length wl = n /\
      forall i, i < n -> exists out, P i out /\ row_drawn self i out (nth i nl []) (nth i wl []))) end.
  { apply (for_n_inv _ (fun m r => let '(nl, wl, _) := r in
      length nl = m /\ length wl = m /\
      forall i, i < m -> exists out, P i out /\ row_drawn self i out (nth i nl []) (nth i wl []))).
    - cbn. repeat split; auto. intros i Hi; lia.
    - intros m [[nl wl] s0] Hm (H1 & H2 & H3).
      specialize (HP m s0 Hm). apply okp_ex in HP as ([out s1] & E & HP). rewrite E. cbn [bind fst] in *.
      rewrite draw_weights_eq by apply resize_length. cbn [bind].
      assert (Hadd : forall ns ws s2, row_drawn self m out ns ws ->
        okp (Ok (nl ++ [ns], wl ++ [ws], s2 : rst g)) (fun r => let '(nl, wl, _) := r in
          length nl = S m /\ length wl = S m /\
          forall i, i < S m -> exists out, P i out /\ row_drawn self i out (nth i nl []) (nth i wl []))).
      { intros ns ws s2 HR. cbn. rewrite !app_length. cbn. split; [lia|]. split; [lia|].
        intros i Hi. destruct (Nat.eq_dec i m) as [->|Hne].
        - exists out. rewrite !app_nth2 by lia. rewrite H1, H2, Nat.sub_diag. cbn. auto.
        - destruct (H3 i ltac:(lia)) as (o & Ho & HR'). exists o. rewrite !app_nth1 by lia. auto. }
      destruct self.
      + pose proof (draws_S (length out) s1) as DS. pose proof (draws_st_S (length out) s1) as DT.
        destruct (r_real g (f0 a) (f1 a) (draws_st g (length out) s1)) as [u s2]. cbn [fst snd] in *.
        rewrite normalize_eq by (rewrite !app_length, draws_length; auto). cbn [bind].
        apply Hadd. split; auto. exists s1. rewrite app_length, Nat.add_1_r. rewrite DS.
        rewrite fsum_snoc. reflexivity.
      + rewrite normalize_eq by (apply draws_length). cbn [bind].
        apply Hadd. split; [now rewrite app_nil_r|]. exists s1. reflexivity. }
  apply okp_ex in G as ([[nl wl] s'] & E & H1 & H2 & H3). rewrite E. cbn [bind].
  exists (net_of_lists d nl wl Incoming), s'. split; auto. cbn. rewrite H1. auto.
Qed.

Lemma gen_full_const n (w : F a) : generate_fully_connected d n w =
  Ok (mkNet (repeat d n) (repeat (seq 0 n) n) (repeat (repeat w n) n) Incoming).
Proof.
  unfold generate_fully_connected. rewrite all_indices_eq. cbn [bind].
  match goal with |- context[bind (for_n n ?b ?st) _] =>
    assert (G : okp (for_n n b st) (fun r => r = (repeat (seq 0 n) n, repeat (repeat w n) n))) end.
  { apply (for_n_inv _ (fun m r => r = (repeat (seq 0 n) m, repeat (repeat w n) m))); auto.
    intros m st Hm ->. cbn [okp]. f_equal; [f_equal|]; now rewrite <- repeat_cons. }
  apply okp_ex in G as (x & E & ->). rewrite E. cbn. unfold net_of_lists. now rewrite repeat_length.
Qed.

Lemma gen_full_random n s :
  exists G s', generate_fully_connected_random g d n s = Ok (G, s') /\
    agents G = repeat d n /\ neigh G = repeat (seq 0 n) n /\ length (wts G) = n /\ dir G = Incoming /\
    forall i, i < n -> exists s, nth i (wts G) [] = map (fun w => fdiv a w (fsum (draws g n s))) (draws g n s).
Proof.
  unfold generate_fully_connected_random. rewrite all_indices_eq. cbn [bind].
  match goal with |- context[bind (for_n n ?b ?st) _] =>
    assert (G : okp (for_n n b st) (fun r => let '(nl, wl, ws, _) := r in
      nl = repeat (seq 0 n) n /\ length wl = n /\
      forall i, i < n -> exists s, nth i wl [] = map (fun w => fdiv a w (fsum (draws g n s))) (draws g n s))) end.
  { eapply okp_impl.
    - apply (for_n_inv _ (fun m r => let '(nl, wl, ws, _) := r in
        nl = repeat (seq 0 n) m /\ length wl = m /\ length ws = n /\
        forall i, i < m -> exists s, nth i wl [] = map (fun w => fdiv a w (fsum (draws g n s))) (draws g n s))).
      + cbn. rewrite repeat_length. repeat split; auto. intros; lia.
      + intros m [[[nl wl] ws] s0] Hm (-> & H2 & H3 & H4).
        rewrite draw_weights_eq by auto. cbn [bind].
        rewrite normalize_eq by (rewrite draws_length, seq_length; auto). cbn.
        rewrite app_length, map_length, draws_length. cbn. repeat split; auto; try lia.
        * now rewrite <- repeat_cons.
        * intros i Hi. destruct (Nat.eq_dec i m) as [->|Hne].
          -- exists s0. rewrite app_nth2 by lia. rewrite H2, Nat.sub_diag. reflexivity.
          -- rewrite app_nth1 by lia. apply H4. lia.
    - intros [[[nl wl] ws] s0] (H1 & H2 & H3 & H4). auto. }
  apply okp_ex in G as ([[[nl wl] ws] s'] & E & H1 & H2 & H3). rewrite E. cbn [bind].
  exists (net_of_lists d nl wl Incoming), s'. split; auto. cbn. rewrite H1, repeat_length. auto.
Qed.

End P.
