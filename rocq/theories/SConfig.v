(** Specification vocabulary for configuration files and settings. *)
From Verif Require Import Base Arith64 MText MActivity MConfig.
From Coq Require Import Reals.
From Flocq Require Import IEEE754.BinarySingleNaN.

(** ** Entries of a configuration file *)
Section Entries.
Context {a : Arith} (trunc : F a -> option Z).
Notation D := (F a).
Notation table := (list (text * toml D)).

(** [l] maps [key] to [v]: the first pair with that key. *)
Definition assoc (l : table) (key : text) (v : toml D) : Prop :=
  exists before after, l = before ++ (key, v) :: after /\ ~ In key (map fst before).
(** The file contains [section] key = v. *)
Definition entry (file : table) (section key : text) (v : toml D) : Prop :=
  exists s, assoc file section (TTable s) /\ assoc s key v.

(** The usable values of an entry for an option of each C++ type: *)
(** a number for a double (an integer only when it converts exactly), *)
Definition as_double (v : toml D) (x : D) : Prop :=
  v = TFloat x \/ exists z, v = TInt z /\ (Z.abs z <= 2 ^ 53)%Z /\ x = fofZ a z.
(** a double with an integral value that fits 64 bits *)
Definition integral (x : D) (z : Z) : Prop :=
  trunc x = Some z /\ feq a (fofZ a z) x = true /\ (- 2 ^ 63 <= z < 2 ^ 63)%Z.
(** an integer, an integral float, or a Boolean (as 0 or 1) for an integer type with range [lo,hi], *)
Definition as_integer (lo hi : Z) (v : toml D) (z : Z) : Prop :=
  (v = TInt z /\ lo <= z <= hi)%Z \/
  (exists x, v = TFloat x /\ integral x z /\ (lo <= z <= hi)%Z) \/
  (v = TBool true /\ z = 1%Z) \/ (v = TBool false /\ z = 0%Z).
Definition as_int : toml D -> Z -> Prop := as_integer (- 2 ^ 31) (2 ^ 31 - 1).
Definition as_size : toml D -> Z -> Prop := as_integer 0 (2 ^ 63 - 1).
(** a Boolean, or an integer (nonzero meaning true), for a bool. *)
Definition as_bool (v : toml D) (b : bool) : Prop :=
  v = TBool b \/ exists z, v = TInt z /\ (b = true <-> z <> 0%Z).

(** [actual] is the value given by the file where there is a usable one, otherwise the default. *)
Definition specified {T} (file : table) (section key : text) (usable : toml D -> T -> Prop) (default actual : T) : Prop :=
  (exists v, entry file section key v /\ usable v actual) \/
  ((forall v x, entry file section key v -> ~ usable v x) /\ actual = default).
(** The same for std::optional options, which have no default value. *)
Definition specified_opt {T} (file : table) (section key : text) (usable : toml D -> T -> Prop) (actual : option T) : Prop :=
  (exists v x, entry file section key v /\ usable v x /\ actual = Some x) \/
  ((forall v x, entry file section key v -> ~ usable v x) /\ actual = None).

(** The numbers in an array, in order; other elements are skipped. *)
Inductive numbers {T} (of_int : Z -> T) (of_float : D -> T -> Prop) : list (toml D) -> list T -> Prop :=
| num_nil : numbers of_int of_float [] []
| num_int z l r : numbers of_int of_float l r -> numbers of_int of_float (TInt z :: l) (of_int z :: r)
| num_float x v l r : of_float x v -> numbers of_int of_float l r -> numbers of_int of_float (TFloat x :: l) (v :: r)
| num_other e l r : (forall z, e <> TInt z) -> (forall x, e <> TFloat x) ->
    numbers of_int of_float l r -> numbers of_int of_float (e :: l) r.
(** A bot list: the numbers of the array when the file has one, otherwise n copies of the default. *)
Definition bot_list {T} (file : table) (section key : text) (of_int : Z -> T) (of_float : D -> T -> Prop)
           (n : nat) (default : T) (actual : list T) : Prop :=
  (exists l, entry file section key (TArray l) /\ numbers of_int of_float l actual) \/
  ((forall l, ~ entry file section key (TArray l)) /\ actual = repeat default n).
(** A float truncated to an int, when it fits. *)
Definition truncates (x : D) (v : Z) : Prop := trunc x = Some v /\ (- 2 ^ 31 <= v < 2 ^ 31)%Z.
End Entries.

(** The names of the models in configuration files. *)
Inductive model_name : text -> model_kind -> Prop :=
| name_degroot : model_name (lit "DeGroot") DeGroot
| name_activity : model_name (lit "ActivityDriven") ActivityDriven
| name_deffuant : model_name (lit "Deffuant") Deffuant
| name_inertial : model_name (lit "ActivityDrivenInertial") ActivityDrivenInertial.

(** ** Ranges of the settings (doubles) *)
Local Open Scope R_scope.
(** The value of a double is above / at least / at most a real number; NaN is none of these. *)
Definition above (x : Arith64.float) (r : R) : Prop :=
  match x with
  | B754_nan => False
  | B754_infinity s => s = false
  | _ => r < B2R x
  end.
Definition at_least (x : Arith64.float) (r : R) : Prop :=
  match x with
  | B754_nan => False
  | B754_infinity s => s = false
  | _ => r <= B2R x
  end.
Definition at_most (x : Arith64.float) (r : R) : Prop :=
  match x with
  | B754_nan => False
  | B754_infinity s => s = true
  | _ => B2R x <= r
  end.

Definition activity_in_range (st : ad_settings Arith64.float) : Prop :=
  above (dt st) 0 /\ (0 <= m st)%Z /\ above (eps st) 0 /\ above (gamma st) 2 /\ at_least (alpha st) 0 /\
  at_least (reciprocity st) 0 /\ above (reluctance_mean st) 0 /\ above (reluctance_sigma st) 0 /\
  above (reluctance_eps st) 0 /\ at_least (covariance_factor st) (-1) /\ at_most (covariance_factor st) 1 /\
  (n_bots st <= length (bot_m st))%nat /\ (n_bots st <= length (bot_activity st))%nat /\
  (n_bots st <= length (bot_opinion st))%nat /\ (n_bots st <= length (bot_homophily st))%nat.

Definition settings_in_range (s : model_settings Arith64.float) : Prop :=
  match s with
  | DeGrootSettings d => at_least (dg_convergence_tol d) 0
  | ActivityDrivenSettings st => activity_in_range st
  | ActivityDrivenInertialSettings i => at_least (in_friction i) 0 /\ activity_in_range (in_activity i)
  | DeffuantSettings d => above (df_homophily_threshold d) 0 /\ at_least (df_mu d) 0 /\ at_most (df_mu d) 1 /\
      (0 < df_dim d)%Z /\ (df_use_binary_vector d = false -> df_dim d = 1%Z)
  end.

Definition options_in_range (o : options Arith64.float) : Prop :=
  (0 < start_output (opt_output o))%Z /\ settings_in_range (opt_settings o).

(** The settings record belongs to the model. *)
Definition matching {D} (o : options D) : Prop :=
  match opt_model o, opt_settings o with
  | DeGroot, DeGrootSettings _ | ActivityDriven, ActivityDrivenSettings _
  | ActivityDrivenInertial, ActivityDrivenInertialSettings _ | Deffuant, DeffuantSettings _ => True
  | _, _ => False
  end.
