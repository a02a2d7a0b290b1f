(** Specification vocabulary: double-precision runs that never overflow. *)
From Coq Require Import Reals.
From Flocq Require Import IEEE754.BinarySingleNaN.
From Verif Require Import Base Arith64 MRandom RFacts MNetwork SNetwork MAgents MActivity SActivity SRounding.
Local Open Scope R_scope.

(** The contract on the C library: tanh of a number (also an infinite one) is a number between -1 and 1. *)
Definition tanh_bounded (lm : Libm FA) : Prop := forall x : double, is_nan x = false -> small_finite 1 (ltanh FA lm x).

(** Finite parameters of moderate size, and a time step between 2^-20 and 1. *)
Definition moderate_settings (st : ad_settings double) : Prop :=
  finite_double (alpha st) /\ small_finite (2 ^ 100) (K st) /\ finite_double (dt st) /\ / 2 ^ 20 <= value (dt st) <= 1.
(** A finite positive reluctance of moderate size. *)
Definition moderate_agent (x : activity_agent double) : Prop :=
  finite_double (a_reluctance x) /\ / 2 ^ 100 <= value (a_reluctance x) <= 2 ^ 100.
(** [M] is at least four times the largest pull K/reluctance * W that weights summing up to [W] can exert. *)
Definition pull_limit (st : ad_settings double) (W M : R) (x : activity_agent double) : Prop :=
  4 * Rabs (value (K st)) * W <= value (a_reluctance x) * M.
(** All of this for a model state, with opinions and configured bot opinions of size at most [M]. *)
Definition moderate_state (md : ad_model (a:=FA) (activity_agent double)) (W M : R) : Prop :=
  moderate_settings (ad_set md) /\
  Forall (fun x => moderate_agent x /\ pull_limit (ad_set md) W M x) (agents (ad_net md)) /\
  Forall (fun x => small_finite M (a_opinion x)) (agents (ad_net md)) /\
  Forall (small_finite M) (bot_opinion (ad_set md)) /\ / 2 ^ 900 <= M <= 2 ^ 900.
(** Rows of a network: at most [d] entries, finite weights with absolute values that sum up to at most [W]. *)
Definition weight_rows {A : Type} (h : network A double) (d : nat) (W : R) : Prop :=
  forall i, (i < n_agents h)%nat -> (length (nth i (wts h) []) <= d)%nat /\
    Forall finite_double (nth i (wts h) []) /\ Rsum (map Rabs (values (nth i (wts h) []))) <= W.
Definition row_limits (d : nat) (W : R) : Prop := INR d <= 2 ^ 40 /\ 0 <= W <= 2 ^ 100.
