(** Property theorems C15-C18: network generators. *)
From Verif Require Import Base BaseFacts Arith64 MRandom SRandom PRandom MNetwork SNetwork MNetGen PNetGen PLattice RFacts WRandom TRandom.
From Coq Require Import Permutation Sorting.Sorted Reals Lra.

(** C15: exactly n_connections distinct neighbours other than the agent, increasing, then the agent
    itself iff self_interaction. *)
Theorem C15_n_connections (a : Arith) (g : Rng a) A (d : A) n k self s :
  sample_ok g -> k < n ->
  exists G s', generate_n_connections g d n k self s = Ok (G, s') /\
    wf G /\ agents G = repeat d n /\ dir G = Incoming /\
    forall i, i < n -> exists out,
      get_neighbours G i = Ok (out ++ (if self then [i] else [])) /\
      length out = k /\ StronglySorted lt out /\ (forall j, In j out -> j < n /\ j <> i).
Proof.
  intros Hs Hk.
  destruct (gen_n_connections_ok g d n k self s
     (fun i out => length out = k /\ StronglySorted lt out /\ (forall j, In j out -> j < n /\ j <> i)))
    as (G & s' & E & H1 & H2 & H3 & H4 & H5).
  { intros i s0 Hi. destruct (C12_draw_unique a g (Some i) k n [] s0 Hs) as (out & s1 & E & A1 & A2 & _ & A3).
    - unfold population_size. destruct (Nat.ltb_spec i n); lia.
    - rewrite E. cbn. repeat split; auto; [now apply A3|]. intros ->. destruct (A3 i H) as [_ A4]. auto. }
  assert (Hn : length (agents G) = n) by (rewrite H1; apply repeat_length).
  exists G, s'. split; auto. split; [|split; [|split]]; auto.
  - repeat split; try lia.
    + intros i Hi. rewrite Hn in Hi. destruct (H5 i Hi) as (out & _ & _ & (s0 & ->)). now rewrite map_length, draws_length.
    + intros i j Hj. rewrite Hn. destruct (Nat.lt_ge_cases i n) as [Hi|Hi].
      2: { rewrite nth_overflow in Hj by lia. destruct Hj. }
      destruct (H5 i Hi) as (out & (_ & _ & Ho) & R & _). rewrite R in Hj. apply in_app_or in Hj as [Hj|Hj].
      * now apply Ho.
      * destruct self; cbn in Hj; [lia|tauto].
  - intros i Hi. destruct (H5 i Hi) as (out & Ho & R & _). exists out. split; auto.
    unfold get_neighbours. rewrite (vget_lt _ _ _ []) by lia. now rewrite R.
Qed.

(** Without the bound: all other agents in order, then n_connections - (n_agents - 1) copies of agent 0. *)
Theorem C15_too_many_connections (a : Arith) (g : Rng a) A (d : A) n k self s :
  sample_ok g -> n <= k ->
  exists G s', generate_n_connections g d n k self s = Ok (G, s') /\
    forall i, i < n ->
      get_neighbours G i = Ok (seq 0 i ++ seq (S i) (n - S i) ++ repeat 0 (k - (n - 1))
                               ++ (if self then [i] else [])).
Proof.
  intros Hs Hk.
  destruct (gen_n_connections_ok g d n k self s
     (fun i out => out = seq 0 i ++ seq (S i) (n - S i) ++ repeat 0 (k - (n - 1))))
    as (G & s' & E & H1 & H2 & H3 & H4 & H5).
  { intros i s0 Hi. assert (EA : admissible (Some i) n = seq 0 i ++ seq (S i) (n - S i)).
    { unfold admissible. replace n with (i + S (n - S i)) at 1 by lia. rewrite seq_app, filter_app.
      cbn [Nat.add seq filter is_not]. rewrite Nat.eqb_refl. cbn [negb].
      assert (Fi : forall m b, (forall x, In x (seq b m) -> x <> i) -> filter (is_not (Some i)) (seq b m) = seq b m).
      { clear. induction m as [|m IH]; intros b H; cbn [seq filter is_not]; auto.
        destruct (Nat.eqb_spec b i) as [Eb|_]; [exfalso; apply (H b); cbn; auto|]. cbn [negb].
        f_equal. apply IH. intros x Hx. apply H. cbn; auto. }
      rewrite !Fi; auto; intros x Hx; apply in_seq in Hx; lia. }
    assert (EL : length (admissible (Some i) n) = n - 1).
    { rewrite EA, app_length, !seq_length. lia. }
    destruct (draw_surplus g Hs (Some i) k n [] s0) as (s1 & E); [lia|].
    rewrite E. cbn [okp fst]. rewrite EL. rewrite EA, <- app_assoc. f_equal. f_equal.
    unfold resize. rewrite firstn_nil. cbn [app length]. rewrite Nat.sub_0_r.
    replace k with ((n - 1) + (k - (n - 1))) at 1 by lia. rewrite repeat_app.
    rewrite skipn_app, skipn_all2 by (rewrite repeat_length; lia).
    rewrite repeat_length, Nat.sub_diag. reflexivity. }
  exists G, s'. split; auto. intros i Hi. destruct (H5 i Hi) as (out & -> & R & _).
  unfold get_neighbours. rewrite (vget_lt _ _ _ []) by lia. rewrite R, <- !app_assoc. reflexivity.
Qed.

Example C15_instance :
  exists G, generate_n_connections (const_rng (a:=RA) (1/2)%R 0%R) tt 3 1 true tt = Ok (G, tt) /\
    neigh G = [[1;0];[0;1];[0;2]] /\ sample_ok (const_rng (a:=RA) (1/2)%R 0%R) /\ 1 < 3.
Proof. eexists. split; [reflexivity|]. split; [reflexivity|]. split; [apply const_rng_sample_ok|lia]. Qed.

(** C16. Each weight is the drawn value divided by the row's total ... (any arithmetic) *)
Theorem C16_rows_are_normalised_draws (a : Arith) (g : Rng a) A (d : A) n k self s G s' :
  sample_ok g -> generate_n_connections g d n k self s = Ok (G, s') ->
  forall i, i < n -> exists si ns,
    get_neighbours G i = Ok ns /\
    get_weights G i = Ok (map (fun u => fdiv a u (fsum (draws g (length ns) si))) (draws g (length ns) si)).
Proof.
  intros Hs E i Hi.
  destruct (gen_n_connections_ok g d n k self s (fun _ _ => True)) as (G' & s'' & E' & H1 & H2 & H3 & H4 & H5).
  { intros i0 s0 _. destruct (draw_eq g Hs (Some i0) k n [] s0) as (out & s1 & -> & _). cbn; auto. }
  rewrite E in E'. inversion E'; subst G' s''. destruct (H5 i Hi) as (out & _ & R & si & W).
  exists si, (nth i (neigh G) []). unfold get_neighbours, get_weights.
  rewrite !(vget_lt _ _ _ []) by lia. rewrite W. auto.
Qed.

Theorem C16_fully_connected_rows (a : Arith) (g : Rng a) A (d : A) n s G s' :
  generate_fully_connected_random g d n s = Ok (G, s') ->
  forall i, i < n -> exists si,
    get_weights G i = Ok (map (fun u => fdiv a u (fsum (draws g n si))) (draws g n si)).
Proof.
  intros E i Hi. destruct (gen_full_random g d n s) as (G' & s'' & E' & H1 & H2 & H3 & H4 & H5).
  rewrite E in E'. inversion E'; subst G' s''. destruct (H5 i Hi) as (si & W). exists si.
  unfold get_weights. rewrite (vget_lt _ _ _ []) by lia. now rewrite W.
Qed.

Lemma fsum_Rsum (l : list R) : @fsum RA l = Rsum l.
Proof. unfold fsum. cbn. rewrite fold_left_Rsum. lra. Qed.

Lemma draws_unit (g : Rng RA) k s : real_ok g -> Forall (fun u => 0 <= u < 1)%R (draws g k s).
Proof.
  intros Hr. revert s. induction k as [|k IH]; intros s; cbn [draws]; constructor; auto.
  destruct (Hr 0%R 1%R s) as [H1 H2].
  - cbn. unfold Rltb. destruct (Rlt_dec 0 1); auto. lra.
  - cbn [f0 f1 RA]. destruct (r_real g 0%R 1%R s) as [u s']. cbn in *.
    destruct (Rleb_spec 0 u); [|discriminate]. destruct (Rltb_spec u 1); [lra|discriminate].
Qed.

Lemma draws_not_zero (l : list R) : Forall (fun u => 0 <= u < 1)%R l ->
  (0 <= Rsum l)%R /\ (Exists (fun u => u <> 0%R) l -> (0 < Rsum l)%R).
Proof.
  induction 1 as [|u l Hu Hl [IH1 IH2]]; rewrite ?Rsum_nil, ?Rsum_cons.
  - split; [lra|]. intros E; inversion E.
  - split; [lra|]. intros E. inversion E as [? ? Hne|? ? He]; subst.
    + destruct (Rtotal_order u 0) as [?|[?|?]]; [lra|contradiction|lra].
    + specialize (IH2 He). lra.
Qed.

Lemma normalised_ok (l : list R) : Forall (fun u => 0 <= u < 1)%R l -> Exists (fun u => u <> 0%R) l ->
  let ws := map (fun u => u / Rsum l)%R l in
  Rsum ws = 1%R /\ Forall (fun w => 0 <= w <= 1)%R ws.
Proof.
  intros Hl Hn ws. pose proof (draws_not_zero l Hl) as [_ Hp]. specialize (Hp Hn).
  assert (S1 : Rsum ws = 1%R) by (unfold ws; rewrite Rsum_scale; field; lra).
  assert (H0 : Forall (fun w => 0 <= w)%R ws).
  { unfold ws. apply Forall_forall. intros w Hw. apply in_map_iff in Hw as (u & <- & Hu).
    rewrite Forall_forall in Hl. specialize (Hl u Hu). unfold Rdiv. apply Rmult_le_pos; [lra|].
    apply Rlt_le, Rinv_0_lt_compat. lra. }
  split; auto. clearbody ws. clear -S1 H0.
  destruct (Rsum_nonneg ws H0) as [_ B2]. rewrite S1 in B2. rewrite Forall_forall in *. intros w Hw. split; auto.
Qed.

(** ... in exact arithmetic the weights of a row are in [0,1] and sum to one, unless all draws of the
    row were zero. *)
Theorem C16_row_stochastic (g : Rng RA) A (d : A) n k self s G s' i ws :
  sample_ok g -> real_ok g ->
  generate_n_connections g d n k self s = Ok (G, s') \/
  generate_fully_connected_random g d n s = Ok (G, s') ->
  i < n -> get_weights G i = Ok ws ->
  exists si, let us := draws g (length ws) si in
    ws = map (fun u => u / Rsum us)%R us /\ Forall (fun u => 0 <= u < 1)%R us /\
    (Exists (fun u => u <> 0%R) us -> Rsum ws = 1%R /\ Forall (fun w => 0 <= w <= 1)%R ws).
Proof.
  intros Hs Hr E Hi Hw.
  assert (D : exists m si, ws = map (fun u => u / Rsum (draws g m si))%R (draws g m si)).
  { destruct E as [E|E].
    - destruct (C16_rows_are_normalised_draws _ g A d n k self s G s' Hs E i Hi) as (si & ns & _ & Ew).
      rewrite Ew in Hw. inversion Hw. rewrite fsum_Rsum. exists (length ns), si. reflexivity.
    - destruct (C16_fully_connected_rows _ g A d n s G s' E i Hi) as (si & Ew).
      rewrite Ew in Hw. inversion Hw. rewrite fsum_Rsum. exists n, si. reflexivity. }
  destruct D as (m & si & E'). exists si. assert (Em : length ws = m) by (rewrite E', map_length; exact (draws_length g m si)).
  rewrite Em. cbn zeta. split; auto.
  split; [now apply draws_unit|]. intros Hn. rewrite E'. apply normalised_ok; auto. now apply draws_unit.
Qed.

(** In particular, with a generator that never returns exactly 0, every non-empty row sums to one. *)
Theorem C16_row_sums_to_one (g : Rng RA) A (d : A) n k self s G s' i ws :
  sample_ok g -> real_ok g -> (forall s, fst (r_real g 0%R 1%R s) <> 0%R) ->
  generate_n_connections g d n k self s = Ok (G, s') \/
  generate_fully_connected_random g d n s = Ok (G, s') ->
  i < n -> get_weights G i = Ok ws -> ws <> [] ->
  Rsum ws = 1%R /\ Forall (fun w => 0 < w <= 1)%R ws.
Proof.
  intros Hs Hr Hnz E Hi Hw Hne.
  destruct (C16_row_stochastic g A d n k self s G s' i ws Hs Hr E Hi Hw) as (si & E' & Hu & H).
  cbn zeta in *. assert (HA : Forall (fun u => u <> 0%R) (draws g (length ws) si)).
  { clear -Hnz. generalize (length ws) as m. intros m. revert si. induction m as [|m IH]; intros si; cbn [draws]; constructor; auto. }
  destruct H as [H1 H2].
  - destruct ws as [|w ws]; [congruence|]. cbn [length draws] in *. inversion HA; subst. now constructor.
  - split; auto. set (us := draws g (length ws) si) in *. clearbody us. rewrite E'.
    assert (Hp : (0 < Rsum us)%R).
    { apply draws_not_zero; auto. destruct us as [|u us]; [exfalso; apply Hne; exact E'|]. inversion HA; subst. now constructor. }
    apply Forall_forall. intros w Hin. split.
    + apply in_map_iff in Hin as (u & <- & Hin). rewrite Forall_forall in HA, Hu. specialize (HA u Hin). specialize (Hu u Hin).
      apply Rmult_lt_0_compat; [lra|now apply Rinv_0_lt_compat].
    + rewrite <- E' in Hin. rewrite Forall_forall in H2. now apply H2.
Qed.

Example C16_instance : real_ok (const_rng (a:=RA) (1/2)%R 0%R) -> False.
Proof.
  (* the constant generator is not a uniform distribution on every interval ... *)
  intros H. destruct (H 2%R 3%R tt) as [H1 _].
  - cbn. unfold Rltb. destruct (Rlt_dec 2 3); auto. lra.
  - cbn in H1. unfold Rleb in H1. destruct (Rle_dec 2 (1/2)); [lra|discriminate].
Qed.
(** ... but this one, returning the midpoint, is. *)
Definition mid_rng : Rng RA :=
  mkRng RA nat (fun lo hi s => (((lo + hi) / 2)%R, S s)) (fun lo hi s => (lo, S s))
        (fun pop k s => (seq 0 (Nat.min k pop), S s)) (fun s => (0%R, S s)).
Example C16_contracts_met : sample_ok mid_rng /\ real_ok mid_rng.
Proof.
  split.
  - intros pop k s. apply (const_rng_sample_ok RA 0%R 0%R pop k tt).
  - intros lo hi s H. cbn in *. unfold Rltb, Rleb in *. destruct (Rlt_dec lo hi); [|discriminate].
    destruct (Rle_dec lo ((lo+hi)/2)); [|lra]. destruct (Rlt_dec ((lo+hi)/2) hi); [auto|lra].
Qed.

(** C17 *)
Theorem C17_fully_connected (a : Arith) A (d : A) n (w : F a) :
  exists G, generate_fully_connected d n w = Ok G /\ wf G /\ dir G = Incoming /\ agents G = repeat d n /\
    forall i, i < n -> get_neighbours G i = Ok (seq 0 n) /\ get_weights G i = Ok (repeat w n).
Proof.
  rewrite gen_full_const. eexists. split; [reflexivity|].
  assert (R : forall X (x y : X) i, i < n -> nth i (repeat x n) y = x).
  { intros X x y i Hi. rewrite nth_indep with (d':=x); [apply nth_repeat|now rewrite repeat_length]. }
  split; [|split; [|split]]; auto.
  - repeat split; cbn; rewrite ?repeat_length; auto.
    + intros i Hi. rewrite !R by auto. now rewrite seq_length, repeat_length.
    + intros i j Hj. destruct (Nat.lt_ge_cases i n) as [Hi|Hi].
      * rewrite R in Hj by auto. apply in_seq in Hj. lia.
      * rewrite nth_overflow in Hj by (rewrite repeat_length; auto). destruct Hj.
  - intros i Hi. unfold get_neighbours, get_weights. cbn.
    rewrite !(vget_lt _ _ _ []) by (rewrite repeat_length; auto). now rewrite !R.
Qed.

Theorem C17_fully_connected_random (a : Arith) (g : Rng a) A (d : A) n s :
  exists G s', generate_fully_connected_random g d n s = Ok (G, s') /\ wf G /\ dir G = Incoming /\
    agents G = repeat d n /\ forall i, i < n -> get_neighbours G i = Ok (seq 0 n).
Proof.
  destruct (gen_full_random g d n s) as (G & s' & E & H1 & H2 & H3 & H4 & H5).
  exists G, s'. split; auto.
  assert (R : forall X (x y : X) i, i < n -> nth i (repeat x n) y = x).
  { intros X x y i Hi. rewrite nth_indep with (d':=x); [apply nth_repeat|now rewrite repeat_length]. }
  split; [|split; [|split]]; auto.
  - repeat split; rewrite ?H1, ?H2, ?repeat_length; auto.
    + intros i Hi. destruct (H5 i Hi) as (si & ->). rewrite R by auto. now rewrite map_length, draws_length, seq_length.
    + intros i j Hj. destruct (Nat.lt_ge_cases i n) as [Hi|Hi].
      * rewrite R in Hj by auto. apply in_seq in Hj. lia.
      * rewrite nth_overflow in Hj by (rewrite repeat_length; auto). destruct Hj.
  - intros i Hi. unfold get_neighbours. rewrite H2.
    rewrite (vget_lt _ _ _ []) by (rewrite repeat_length; auto). now rewrite R.
Qed.

(** C18 *)
Theorem C18_lattice A W (d : A) (L : nat) (w : W) : (Z.of_nat L < 2147483648)%Z ->
  exists G, generate_square_lattice d L w = Ok G /\ wf G /\ n_agents G = L * L /\ dir G = Incoming /\
    forall x y, x < L -> y < L ->
      get_neighbours G (x + L * y) =
        Ok [ (x + L - 1) mod L + L * y; (x + 1) mod L + L * y;
             x + L * ((y + L - 1) mod L); x + L * ((y + 1) mod L) ] /\
      get_weights G (x + L * y) = Ok [w; w; w; w].
Proof.
  intros HL. pose proof (lattice_ok d L HL w) as H. apply okp_ex in H as (G & E & H1 & H2 & H3 & H4 & H5).
  assert (Hn : length (agents G) = L * L) by (rewrite H1; apply repeat_length).
  exists G. split; auto.
  assert (Hsite : forall i, i < L * L -> nth i (neigh G) [] = four L (i mod L) (i / L) /\
                                         nth i (wts G) [] = repeat w 4).
  { intros i Hi. assert (HL0 : L <> 0) by (destruct L; cbn in Hi; lia).
    destruct (H5 (i mod L) (i / L)) as [A1 A2].
    - now apply Nat.mod_upper_bound.
    - apply Nat.div_lt_upper_bound; lia.
    - rewrite Nat.add_comm, <- Nat.div_mod in A1, A2 by auto.
      split; apply nth_error_nth; auto. }
  split; [|split; [|split]]; auto.
  - repeat split; try lia.
    + intros i Hi. rewrite Hn in Hi. destruct (Hsite i Hi) as [-> ->]. reflexivity.
    + intros i j Hj. rewrite Hn. destruct (Nat.lt_ge_cases i (L * L)) as [Hi|Hi].
      2: { rewrite nth_overflow in Hj by lia. destruct Hj. }
      destruct (Hsite i Hi) as [E1 _]. rewrite E1 in Hj. assert (HL0 : L <> 0) by (destruct L; cbn in Hi; lia).
      eapply four_lt; [exact HL| | |exact Hj].
      * now apply Nat.mod_upper_bound.
      * apply Nat.div_lt_upper_bound; lia.
  - intros x y Hx Hy. destruct (H5 x y Hx Hy) as [A1 A2]. unfold get_neighbours, get_weights.
    split; apply vget_ok; assumption.
Qed.

(** The neighbour relation is symmetric, multiplicities included. *)
Theorem C18_symmetric A W (d : A) (L : nat) (w : W) G u v nu nv : (Z.of_nat L < 2147483648)%Z ->
  generate_square_lattice d L w = Ok G ->
  get_neighbours G u = Ok nu -> get_neighbours G v = Ok nv ->
  count_occ Nat.eq_dec nu v = count_occ Nat.eq_dec nv u.
Proof.
  intros HL E Hu Hv. destruct (C18_lattice A W d L w HL) as (G' & E' & Wf & Hn & _ & H).
  rewrite E in E'. inversion E'; subst G'. clear E'.
  assert (Hlt : forall i r, get_neighbours G i = Ok r -> i < L * L).
  { intros i r Hi. unfold get_neighbours in Hi. apply vget_ok in Hi.
    assert (Hi' : nth_error (neigh G) i <> None) by congruence. apply nth_error_Some in Hi'.
    destruct Wf as (W1 & _). unfold n_agents in Hn. lia. }
  pose proof (Hlt u nu Hu) as Lu. pose proof (Hlt v nv Hv) as Lv.
  assert (HL0 : L <> 0) by (destruct L; cbn in Lu; lia).
  assert (Bu : u mod L < L /\ u / L < L) by (split; [now apply Nat.mod_upper_bound|apply Nat.div_lt_upper_bound; lia]).
  assert (Bv : v mod L < L /\ v / L < L) by (split; [now apply Nat.mod_upper_bound|apply Nat.div_lt_upper_bound; lia]).
  pose proof (Nat.div_mod u L HL0) as Du. pose proof (Nat.div_mod v L HL0) as Dv.
  destruct (H _ _ (proj1 Bu) (proj2 Bu)) as [Eu _]. destruct (H _ _ (proj1 Bv) (proj2 Bv)) as [Ev _].
  rewrite Nat.add_comm, <- Du, Hu in Eu. rewrite Nat.add_comm, <- Dv, Hv in Ev.
  inversion Eu; subst nu. inversion Ev; subst nv.
  pose proof (four_symmetric L HL (u mod L) (u / L) (v mod L) (v / L)) as S. unfold four, pred_mod, succ_mod in S.
  rewrite (Nat.add_comm (v mod L)), <- Dv in S. rewrite (Nat.add_comm (u mod L) (L * (u / L))), <- Du in S.
  apply S; tauto.
Qed.

(** From edge length 3 on the four neighbours are distinct and different from the agent. *)
Theorem C18_distinct A W (d : A) (L : nat) (w : W) G u nu : (Z.of_nat L < 2147483648)%Z -> 3 <= L ->
  generate_square_lattice d L w = Ok G -> get_neighbours G u = Ok nu -> NoDup (u :: nu).
Proof.
  intros HL H3 E Hu. destruct (C18_lattice A W d L w HL) as (G' & E' & Wf & Hn & _ & H).
  rewrite E in E'. inversion E'; subst G'. clear E'.
  assert (Lu : u < L * L).
  { unfold get_neighbours in Hu. apply vget_ok in Hu.
    assert (Hi' : nth_error (neigh G) u <> None) by congruence. apply nth_error_Some in Hi'.
    destruct Wf as (W1 & _). unfold n_agents in Hn. lia. }
  assert (HL0 : L <> 0) by lia.
  assert (Bu : u mod L < L /\ u / L < L) by (split; [now apply Nat.mod_upper_bound|apply Nat.div_lt_upper_bound; lia]).
  pose proof (Nat.div_mod u L HL0) as Du.
  destruct (H _ _ (proj1 Bu) (proj2 Bu)) as [Eu _]. rewrite Nat.add_comm, <- Du, Hu in Eu. inversion Eu; subst nu.
  pose proof (four_distinct L HL (u mod L) (u / L) H3 (proj1 Bu) (proj2 Bu)) as ND. unfold four, pred_mod, succ_mod in ND.
  rewrite (Nat.add_comm (u mod L) (L * (u / L))), <- Du in ND. exact ND.
Qed.

Example C18_instance : exists G, generate_square_lattice tt 3 7 = Ok G /\
  get_neighbours G 0 = Ok [2;1;6;3] /\ get_neighbours G 8 = Ok [7;6;5;2].
Proof. eexists. split; [vm_compute; reflexivity|]. split; reflexivity. Qed.
(** L = 1: the single agent is its own neighbour four times. *)
Example C18_instance1 : exists G, generate_square_lattice tt 1 7 = Ok G /\ get_neighbours G 0 = Ok [0;0;0;0].
Proof. eexists. split; [vm_compute; reflexivity|]. reflexivity. Qed.

Print Assumptions C15_n_connections.
Print Assumptions C15_too_many_connections.
Print Assumptions C16_rows_are_normalised_draws.
Print Assumptions C16_fully_connected_rows.
Print Assumptions C16_row_stochastic.
Print Assumptions C16_row_sums_to_one.
Print Assumptions C17_fully_connected.
Print Assumptions C17_fully_connected_random.
Print Assumptions C18_lattice.
Print Assumptions C18_symmetric.
Print Assumptions C18_distinct.
