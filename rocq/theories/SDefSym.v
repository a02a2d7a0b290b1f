(** Specification vocabulary: related states of the Deffuant model. *)
From Verif Require Import Base Arith64 MNetwork MAgents MDeGroot SDeGroot MDeffuant.
From Coq Require Import Reals.
From Flocq Require Import IEEE754.BinarySingleNaN.

(** The model in which every opinion x is replaced by c x + d and the threshold by |c| times the threshold (exact arithmetic). *)
Definition rescaled (c d : R) (m : deffuant (a:=RA) (simple_agent R)) : deffuant (a:=RA) (simple_agent R) :=
  mkDeffuant (a:=RA) (df_base m) (Rabs c * homophily_threshold m)%R (mu m) (use_network m)
    (with_agents (df_net m) (map (fun x => mkSimple (c * s_opinion x + d)%R) (agents (df_net m)))).

(** Doubles: [y] is - [x], where the sign of a zero does not matter (and NaN belongs to NaN). *)
Definition opposite (x y : Arith64.float) : Prop :=
  y = Bopp x \/ exists s s', x = B754_zero s /\ y = B754_zero s'.

(** The same model but for the opinions. *)
Definition same_but_opinions {a : Arith} (m m' : deffuant (a:=a) (simple_agent (F a))) : Prop :=
  df_base m' = df_base m /\ homophily_threshold m' = homophily_threshold m /\ mu m' = mu m /\ use_network m' = use_network m /\
  n_agents (df_net m') = n_agents (df_net m) /\ neigh (df_net m') = neigh (df_net m) /\ wts (df_net m') = wts (df_net m) /\ dir (df_net m') = dir (df_net m).
