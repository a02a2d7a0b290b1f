(** No part of the program but the model factory and the variant accesses raises ExIncompatible or
    ExBadVariant. *)
From Verif Require Import Base BaseFacts Arith64 MRandom MNetwork MNetGen MTarjan MText MNetFile MAgents MDeGroot MDeffuant MDist MActivity MConfig MSimulation.

Definition quiet {A : Type} (r : res A) : Prop := r <> Throw ExIncompatible /\ r <> Throw ExBadVariant.

Lemma quiet_ok {A} (x : A) : quiet (Ok x). Proof. split; discriminate. Qed.
Lemma quiet_ub {A} u : quiet (UB (A:=A) u). Proof. split; discriminate. Qed.
Lemma quiet_nofuel {A} : quiet (NoFuel (A:=A)). Proof. split; discriminate. Qed.
Lemma quiet_runtime {A} : quiet (Throw (A:=A) ExRuntime). Proof. split; discriminate. Qed.
Lemma quiet_range {A} : quiet (Throw (A:=A) ExOutOfRange). Proof. split; discriminate. Qed.
Lemma quiet_arg {A} : quiet (Throw (A:=A) ExInvalidArgument). Proof. split; discriminate. Qed.
Lemma quiet_length {A} : quiet (Throw (A:=A) ExLengthError). Proof. split; discriminate. Qed.
Lemma quiet_bind {A B} (r : res A) (k : A -> res B) : quiet r -> (forall x, quiet (k x)) -> quiet (bind r k).
Proof. intros [H1 H2] K. destruct r as [x|e|u|]; cbn; auto using quiet_ub, quiet_nofuel. split; congruence. Qed.
Lemma quiet_vget {A} (l : list A) i : quiet (vget l i).
Proof. unfold vget. destruct (nth_error l i); auto using quiet_ok, quiet_ub. Qed.
Lemma quiet_vset {A} (l : list A) i x : quiet (vset l i x).
Proof. unfold vset. destruct (i <? length l); auto using quiet_ok, quiet_ub. Qed.
Lemma quiet_for_from {St} (body : nat -> St -> res St) : (forall i s, quiet (body i s)) ->
  forall n i s, quiet (for_from i n body s).
Proof. intros H. induction n as [|n IH]; intros i s; cbn; [apply quiet_ok|]. apply quiet_bind; auto. Qed.
Lemma quiet_for_n {St} (body : nat -> St -> res St) n s : (forall i s, quiet (body i s)) -> quiet (for_n n body s).
Proof. intros H. now apply quiet_for_from. Qed.
Lemma quiet_for_each {X St} (body : X -> St -> res St) : (forall i s, quiet (body i s)) ->
  forall l s, quiet (for_each l body s).
Proof. intros H. induction l as [|x l IH]; intros s; cbn; [apply quiet_ok|]. apply quiet_bind; auto. Qed.

Create HintDb quietdb.
#[export] Hint Resolve quiet_ok quiet_ub quiet_nofuel quiet_runtime quiet_range quiet_arg quiet_length quiet_vget quiet_vset : quietdb.

Ltac q1 := intros; first
  [ solve [auto with quietdb]
  | apply quiet_bind
  | apply quiet_for_n | apply quiet_for_from | apply quiet_for_each
  | match goal with
    | |- context [let '(_, _) := ?x in _] => destruct x
    | |- context [match ?x with _ => _ end] => destruct x
    end ].
Ltac q := cbv zeta; repeat (q1; cbv zeta beta; cbn [fst snd]).

Lemma quiet_check b : quiet (check b). Proof. unfold check. q. Qed.
Lemma quiet_substr s p c : quiet (substr s p c). Proof. unfold substr. q. Qed.
Lemma quiet_stoi s : quiet (stoi s).
Proof. unfold stoi. cbv zeta. destruct (match skip_spaces s with [] => _ | _ => _ end) as [neg t]. q. Qed.
#[export] Hint Resolve quiet_check quiet_substr quiet_stoi : quietdb.

Lemma quiet_parse_loop {St} (cb : nat -> text -> St -> res St) : (forall i t s, quiet (cb i t s)) ->
  forall fuel str p i st, quiet (parse_loop cb fuel str p i st).
Proof. intros H. induction fuel as [|f IH]; intros; cbn [parse_loop]; q. Qed.
Lemma quiet_agent_loop {A} (fs : text -> res A) : (forall t, quiet (fs t)) ->
  forall fuel c s l, quiet (agent_line_loop fs fuel c s l).
Proof. intros H. induction fuel as [|f IH]; intros; cbn [agent_line_loop]; q. Qed.

Section Files.
Context {A D : Type} (stod : text -> res D) (HS : forall t, quiet (stod t)).
Lemma quiet_do_column i c st : quiet (do_column stod i c st).
Proof. unfold do_column. q. Qed.
Lemma quiet_column_loop : forall fuel l s i st, quiet (column_loop stod fuel l s i st).
Proof. induction fuel as [|f IH]; intros; cbn [column_loop]; [q|]. apply quiet_bind; [q|]; intros. apply quiet_bind; [apply quiet_do_column|]. q. Qed.
Lemma quiet_line_loop : forall fuel c s nl wl, quiet (line_loop stod fuel c s nl wl).
Proof.
  induction fuel as [|f IH]; intros; cbn [line_loop]; [q|]. apply quiet_bind; [q|]. intros [|ch l]; [q|].
  destruct (Ascii.eqb ch hash); [q|]. apply quiet_bind; [|q]. unfold parse_line. apply quiet_bind; [apply quiet_column_loop|q].
Qed.
Lemma quiet_generate_from_file (d : A) c : quiet (generate_from_file d stod c).
Proof. unfold generate_from_file. apply quiet_bind; [apply quiet_line_loop|q]. Qed.
Lemma quiet_simple t : quiet (simple_from_string stod t). Proof. unfold simple_from_string. q. Qed.
Lemma quiet_activity o t : quiet (activity_from_string o stod t). Proof. unfold activity_from_string. q. Qed.
Lemma quiet_inertial z o t : quiet (inertial_from_string z o stod t).
Proof. unfold inertial_from_string, parse_comma_separated_list. apply quiet_parse_loop. intros. unfold inertial_callback. q. Qed.
Lemma quiet_vector t : quiet (vector_from_string t).
Proof. unfold vector_from_string, parse_comma_separated_list. apply quiet_bind; [|q]. apply quiet_parse_loop. q. Qed.
End Files.

Section Nets.
Context {A W : Type}.
Notation net := (network A W).
Lemma quiet_get_neighbours (g : net) i : quiet (get_neighbours g i). Proof. apply quiet_vget. Qed.
Lemma quiet_get_weights (g : net) i : quiet (get_weights g i). Proof. apply quiet_vget. Qed.
Lemma quiet_set_const (g : net) i ns w : quiet (set_neighbours_const g i ns w). Proof. unfold set_neighbours_const. q. Qed.
Lemma quiet_push (g : net) i j w : quiet (push_back_neighbour_and_weight g i j w). Proof. unfold push_back_neighbour_and_weight. q. Qed.
Lemma quiet_write_weight (g : net) i k w : quiet (write_weight g i k w). Proof. unfold write_weight. q. Qed.
Lemma quiet_toggle (g : net) : quiet (toggle_incoming_outgoing g). Proof. unfold toggle_incoming_outgoing. q. Qed.
Lemma quiet_lattice (d : A) n (w : W) : quiet (generate_square_lattice d n w).
Proof. unfold generate_square_lattice. cbv zeta. apply quiet_for_n; intros. apply quiet_for_n; intros. cbv zeta. apply quiet_set_const. Qed.
Lemma quiet_set_weights (g : net) i ws : quiet (snd (set_weights g i ws)). Proof. unfold set_weights. q. Qed.
End Nets.
#[export] Hint Resolve quiet_get_neighbours quiet_get_weights quiet_set_const quiet_push quiet_write_weight quiet_toggle quiet_lattice : quietdb.

Lemma quiet_lower st v x : quiet (lower st v x). Proof. unfold lower. q. Qed.
Lemma quiet_enter st v : quiet (enter st v). Proof. unfold enter. q. Qed.
Lemma quiet_pop v : forall s acc, quiet (pop_until v s acc). Proof. induction s; intros; cbn; q. Qed.
#[export] Hint Resolve quiet_lower quiet_enter quiet_pop : quietdb.
Lemma quiet_leave st v : quiet (leave st v). Proof. unfold leave. q. Qed.
#[export] Hint Resolve quiet_leave : quietdb.
Lemma quiet_dfs adj : forall fuel v st, quiet (depth_first_search fuel adj v st).
Proof. induction fuel as [|f IH]; intros; cbn [depth_first_search]; q. Qed.
#[export] Hint Resolve quiet_dfs : quietdb.
Lemma quiet_scc {A W} (g : network A W) : quiet (strongly_connected_components g).
Proof. unfold strongly_connected_components, tarjan_run. q. Qed.
#[export] Hint Resolve quiet_scc : quietdb.

Section Num.
Context {a : Arith} (lm : Libm a) (g : Rng a) (pq : PQ a).
Lemma quiet_seqgen ig last : forall fuel i, quiet (seqgen_range fuel i last ig).
Proof. induction fuel; intros; cbn [seqgen_range]; q. Qed.
Lemma quiet_draw ig k n b s : quiet (draw_unique_k_from_n g ig k n b s).
Proof. unfold draw_unique_k_from_n. cbv zeta. apply quiet_bind; [apply quiet_seqgen|]. intros. destruct (r_sample g _ _ _). unfold write_front. q. Qed.
Lemma quiet_queue_top h : quiet (queue_top pq h). Proof. unfold queue_top. q. Qed.
Hint Resolve quiet_draw quiet_queue_top : quietdb.
Lemma quiet_reservoir k n wt b s : (forall i, quiet (wt i)) -> quiet (reservoir_sampling_A_ExpJ lm g pq k n wt b s).
Proof. intros H. unfold reservoir_sampling_A_ExpJ. q. Qed.
Lemma quiet_gen_n {A} (d : A) n k si s : quiet (generate_n_connections g d n k si s).
Proof.
  unfold generate_n_connections. apply quiet_bind; [|q]. apply quiet_for_n. intros i [[nl wl] s']. apply quiet_bind; [q|]. intros [b s2].
  cbv zeta. apply quiet_bind; [unfold draw_weights; q|]. intros [[ws norm] s3]. destruct si; [destruct (r_real g _ _ _)|]; cbv beta iota zeta;
  (apply quiet_bind; [unfold normalize; q|q]).
Qed.
Lemma quiet_fully {A} (d : A) n (w : F a) : quiet (generate_fully_connected d n w).
Proof. unfold generate_fully_connected, all_indices. q. Qed.
Hint Resolve quiet_gen_n quiet_fully : quietdb.

(** DeGroot *)
Lemma quiet_degroot_ctor mx (t : F a) nt : quiet (degroot_ctor mx t nt).
Proof. unfold degroot_ctor, spread_opinions. q. Qed.
Lemma quiet_degroot_it (x : degroot a) : quiet (degroot_iteration x).
Proof. unfold degroot_iteration, degroot_average, degroot_update. q. Qed.
(** Deffuant *)
Lemma quiet_deffuant_ctor {A} (d : A) mx (t m : F a) b nt : quiet (deffuant_ctor d mx t m b nt).
Proof. unfold deffuant_ctor. q. Qed.
Lemma quiet_select {A} b (nt : network A (F a)) s : quiet (select_interacting_agent_pair g b nt s).
Proof. unfold select_interacting_agent_pair. q. Qed.
Lemma quiet_deffuant_it {A} (u : rule g (A:=A)) x s : (forall i j l s, quiet (u i j l s)) -> quiet (deffuant_iteration g u x s).
Proof. intros H. unfold deffuant_iteration. apply quiet_bind; [|q]. apply quiet_for_n. intros i [nt s']. unfold encounter. apply quiet_bind; [apply quiet_select|q]. Qed.
Lemma quiet_rule_simple t m i j l s : quiet (update_rule_simple g t m i j l s). Proof. unfold update_rule_simple. q. Qed.
Lemma quiet_hamming x y : quiet (hamming_distance x y). Proof. unfold hamming_distance. q. Qed.
Hint Resolve quiet_hamming : quietdb.
Lemma quiet_component l i k : quiet (component l i k). Proof. unfold component. q. Qed.
Lemma quiet_set_component l i k o : quiet (set_component l i k o). Proof. unfold set_component. q. Qed.
Hint Resolve quiet_component quiet_set_component : quietdb.
Lemma quiet_rule_vector t m i j l s : quiet (update_rule_vector g t m i j l s). Proof. unfold update_rule_vector. q. Qed.
Lemma quiet_init_simple l : quiet (initialize_agents_simple (a:=a) l). Proof. unfold initialize_agents_simple. q. Qed.
Lemma quiet_init_vector d l s : quiet (initialize_agents_vector g d l s).
Proof. unfold initialize_agents_vector. q. Qed.

(** Activity *)
Section Ops.
Context {A : Type} (ops : agent_ops (F a) A).
Lemma quiet_reset st l : quiet (reset_bots ops st l). Proof. unfold reset_bots. q. Qed.
Lemma quiet_opinion_at l i : quiet (opinion_at ops l i). Proof. unfold opinion_at. q. Qed.
Hint Resolve quiet_opinion_at : quietdb.
Lemma quiet_ad_ctor d st nt s : quiet (ad_ctor lm g ops d st nt s).
Proof.
  unfold ad_ctor. cbv zeta. apply quiet_bind.
  - unfold get_agents_from_power_law. cbv zeta. apply quiet_bind.
    + apply quiet_for_n. intros i [l s']. destruct (r_real g _ _ _). apply quiet_bind; [q|]. intros. cbv zeta.
      destruct (copula_draw lm g _ _ _ _) as [[? ?] ?]. q.
    + q.
  - q.
Qed.
Lemma quiet_homophily st l i j : quiet (homophily_weight lm ops st l i j).
Proof. unfold homophily_weight. q. Qed.
Lemma quiet_m_of (st : ad_settings (F a)) i : quiet (m_of st i). Proof. unfold m_of. q. Qed.
Hint Resolve quiet_homophily quiet_m_of quiet_reservoir : quietdb.
Lemma quiet_contact st i v : quiet (contact_step lm g pq ops st i v).
Proof. unfold contact_step. q. Qed.
Lemma quiet_recip st b i (v : network A (F a) * rst g) : quiet (reciprocity_step g st b i v).
Proof. unfold reciprocity_step. q. Qed.
Hint Resolve quiet_contact quiet_recip : quietdb.
Lemma quiet_update_prob st nt s : quiet (update_network_probabilistic lm g pq ops st nt s).
Proof. unfold update_network_probabilistic. q. Qed.
Lemma quiet_contact_prob st l i c : quiet (contact_prob_step lm ops st l i c).
Proof. unfold contact_prob_step. q. Qed.
Lemma quiet_add_weight (nt : network A (F a)) i k v : quiet (add_weight nt i k v). Proof. unfold add_weight. q. Qed.
Hint Resolve quiet_contact_prob quiet_add_weight : quietdb.
Lemma quiet_mean_step st c i (nt : network A (F a)) : quiet (mean_weight_step st c i nt). Proof. unfold mean_weight_step. q. Qed.
Lemma quiet_set_weights_or (nt : network A (F a)) i ws : quiet (set_weights_or_throw nt i ws).
Proof. unfold set_weights_or_throw. pose proof (quiet_set_weights nt i ws) as H. destruct (set_weights nt i ws). apply quiet_bind; [exact H|q]. Qed.
Hint Resolve quiet_mean_step quiet_set_weights_or quiet_update_prob : quietdb.
Lemma quiet_update st nt c s : quiet (update_network lm g pq ops st nt c s).
Proof. unfold update_network, update_network_mean. q. Qed.
Lemma quiet_slopes st nt op : (forall i, quiet (op i)) -> quiet (get_euler_slopes lm ops st nt op).
Proof. intros H. unfold get_euler_slopes. q. Qed.
End Ops.
Lemma quiet_activity_it x s : quiet (activity_iteration lm g pq x s).
Proof.
  unfold activity_iteration. cbv zeta. apply quiet_bind; [apply quiet_update|]. intros [[nt c] s']. apply quiet_bind.
  - unfold rk4_slopes. cbv zeta. repeat (apply quiet_bind; [apply quiet_slopes; intros; unfold opinion_at; q|intros]). q.
  - intros ks. apply quiet_bind; [unfold rk4_update; q|]. intros. apply quiet_bind; [apply quiet_reset|q].
Qed.
Lemma quiet_inertial_it x s : quiet (inertial_iteration lm g pq x s).
Proof.
  unfold inertial_iteration. cbv zeta. apply quiet_bind; [apply quiet_update|]. intros [[nt c] s']. apply quiet_bind.
  - unfold calc_position. apply quiet_bind; [apply quiet_slopes; intros; unfold opinion_at; q|q].
  - intros [dr l]. apply quiet_bind; [unfold calc_velocity; apply quiet_bind; [apply quiet_slopes; intros; unfold opinion_at; q|q]|].
    intros. apply quiet_bind; [apply quiet_reset|q].
Qed.
Lemma quiet_inertial_ctor d st fr nt s : quiet (inertial_ctor lm g d st fr nt s).
Proof. unfold inertial_ctor. apply quiet_bind; [apply quiet_ad_ctor|q]. Qed.
End Num.

Lemma quiet_network_to_file {A W} (f : W -> text) (nt : network A W) : quiet (network_to_file f nt).
Proof. unfold network_to_file, row_weights. q. Qed.
