(** Model of /repo/include/config_parser.hpp and /repo/src/config_parser.cpp: the settings, reading
    them from a parsed TOML table, and validating them. The TOML parser itself (toml::parse_file) is
    not modelled: the input here is the table it returns. *)
From Verif Require Import Base Arith64 MNetwork MText MActivity.

(** ** Settings *)
(** config_parser.hpp:24-30  enum class Model *)
Inductive model_kind : Type := DeGroot | ActivityDriven | ActivityDrivenInertial | Deffuant.

(** config_parser.hpp:32-42  OutputSettings (size_t values) *)
Record output_settings : Type := mkOutput {
  n_output_agents : option Z;
  n_output_network : option Z;
  print_progress : bool;
  output_initial : bool;
  start_output : Z;
  start_numbering_from : Z
}.

(** config_parser.hpp:44-48 *)
Record degroot_settings (D : Type) : Type := mkDGS { dg_max_iterations : option Z; dg_convergence_tol : D }.
Arguments mkDGS {D}. Arguments dg_max_iterations {D}. Arguments dg_convergence_tol {D}.

(** config_parser.hpp:50-60 *)
Record deffuant_settings (D : Type) : Type := mkDFS {
  df_max_iterations : option Z;
  df_homophily_threshold : D;
  df_mu : D;
  df_use_network : bool;
  df_use_binary_vector : bool;
  df_dim : Z
}.
Arguments mkDFS {D}. Arguments df_max_iterations {D}. Arguments df_homophily_threshold {D}. Arguments df_mu {D}.
Arguments df_use_network {D}. Arguments df_use_binary_vector {D}. Arguments df_dim {D}.

(** config_parser.hpp:87-90  ActivityDrivenInertialSettings; ActivityDrivenSettings (62-85) is
    [ad_settings] in MActivity.v *)
Record inertial_settings (D : Type) : Type := mkINS { in_activity : ad_settings D; in_friction : D }.
Arguments mkINS {D}. Arguments in_activity {D}. Arguments in_friction {D}.

(** config_parser.hpp:92-97 *)
Record network_settings : Type := mkNS { net_file : option text; net_n_agents : Z; net_n_connections : Z }.

(** config_parser.hpp:101-102  the std::variant *)
Inductive model_settings (D : Type) : Type :=
| DeGrootSettings (s : degroot_settings D)
| ActivityDrivenSettings (s : ad_settings D)
| ActivityDrivenInertialSettings (s : inertial_settings D)
| DeffuantSettings (s : deffuant_settings D).
Arguments DeGrootSettings {D}. Arguments ActivityDrivenSettings {D}.
Arguments ActivityDrivenInertialSettings {D}. Arguments DeffuantSettings {D}.

(** std::get<T>(variant): throws std::bad_variant_access when another alternative is held *)
Definition get_degroot {D} (v : model_settings D) : res (degroot_settings D) :=
  match v with DeGrootSettings s => Ok s | _ => Throw ExBadVariant end.
Definition get_activity_driven {D} (v : model_settings D) : res (ad_settings D) :=
  match v with ActivityDrivenSettings s => Ok s | _ => Throw ExBadVariant end.
Definition get_inertial {D} (v : model_settings D) : res (inertial_settings D) :=
  match v with ActivityDrivenInertialSettings s => Ok s | _ => Throw ExBadVariant end.
Definition get_deffuant {D} (v : model_settings D) : res (deffuant_settings D) :=
  match v with DeffuantSettings s => Ok s | _ => Throw ExBadVariant end.

(** config_parser.hpp:99-109  SimulationOptions *)
Record options (D : Type) : Type := mkOptions {
  opt_model : model_kind;
  opt_model_string : text;
  opt_rng_seed : Z;
  opt_output : output_settings;
  opt_settings : model_settings D;
  opt_network : network_settings
}.
Arguments mkOptions {D}. Arguments opt_model {D}. Arguments opt_model_string {D}. Arguments opt_rng_seed {D}.
Arguments opt_output {D}. Arguments opt_settings {D}. Arguments opt_network {D}.

(** ** TOML values *)
(** The nodes of a parsed TOML document (toml++). TOther: dates and times. *)
Inductive toml (D : Type) : Type :=
| TInt (z : Z)                       (* int64_t *)
| TFloat (x : D)
| TBool (b : bool)
| TString (s : text)
| TArray (l : list (toml D))
| TTable (l : list (text * toml D))
| TOther.
Arguments TInt {D}. Arguments TFloat {D}. Arguments TBool {D}. Arguments TString {D}. Arguments TArray {D}.
Arguments TTable {D}. Arguments TOther {D}.

Fixpoint text_eqb (x y : text) : bool :=
  match x, y with
  | [], [] => true
  | c :: x, d :: y => Ascii.eqb c d && text_eqb x y
  | _, _ => false
  end.

Fixpoint lookup {D} (l : list (text * toml D)) (key : text) : option (toml D) :=
  match l with
  | [] => None
  | (k, v) :: t => if text_eqb k key then Some v else lookup t key
  end.
(** node_view operator[]: an empty view when the node is missing or not a table *)
Definition at_key {D} (n : option (toml D)) (key : text) : option (toml D) :=
  match n with Some (TTable l) => lookup l key | _ => None end.

Section Config.
Context {a : Arith}.
Notation D := (F a).
(** Truncation of a double towards zero; None for NaN and the infinities. *)
Variable trunc : D -> option Z.

Definition in_int64 (z : Z) : bool := ((-9223372036854775808 <=? z) && (z <=? 9223372036854775807))%Z.
Definition in_int (z : Z) : bool := ((-2147483648 <=? z) && (z <=? 2147483647))%Z.

(** The int64_t a double equals, if it equals one. *)
Definition whole (x : D) : option Z :=
  match trunc x with
  | Some z => if in_int64 z && feq a (fofZ a z) x then Some z else None
  | None => None
  end.

(** toml++ node::value<T>(), the conversions it makes for T = int, size_t, double, bool, std::string *)
Definition value_int (n : option (toml D)) : option Z :=
  match n with
  | Some (TInt z) => if in_int z then Some z else None
  | Some (TFloat x) => match whole x with Some z => if in_int z then Some z else None | None => None end
  | Some (TBool b) => Some (if b then 1 else 0)%Z
  | _ => None
  end.
Definition value_size (n : option (toml D)) : option Z :=
  match n with
  | Some (TInt z) => if (0 <=? z)%Z then Some z else None
  | Some (TFloat x) => match whole x with Some z => if (0 <=? z)%Z then Some z else None | None => None end
  | Some (TBool b) => Some (if b then 1 else 0)%Z
  | _ => None
  end.
Definition value_double (n : option (toml D)) : option D :=
  match n with
  | Some (TInt z) => if ((-9007199254740992 <=? z) && (z <=? 9007199254740992))%Z then Some (fofZ a z) else None
  | Some (TFloat x) => Some x
  | _ => None
  end.
Definition value_bool (n : option (toml D)) : option bool :=
  match n with
  | Some (TInt z) => Some (negb (z =? 0)%Z)
  | Some (TBool b) => Some b
  | _ => None
  end.
Definition value_string (n : option (toml D)) : option text :=
  match n with Some (TString s) => Some s | _ => None end.

(** config_parser.cpp:39-45  set_if_specified: the new value of [opt] *)
Definition set_if_specified {T} (opt : T) (t_opt : option T) : T :=
  match t_opt with Some v => v | None => opt end.

(** ** Defaults *)
(** config_parser.hpp:44-48; DeGrootSettings() value-initialises, so convergence_tol is 0.0 *)
Definition default_degroot : degroot_settings D := mkDGS None (f0 a).
(** config_parser.hpp:50-60 *)
Definition default_deffuant : deffuant_settings D := mkDFS None (flit a 1 5) (flit a 1 2) false false 1.
(** config_parser.hpp:62-85 *)
Definition default_activity : ad_settings D :=
  mkADS None (flit a 1 100) 10 (flit a 1 100) (flit a 21 10) (fofZ a 3) (flit a 1 2) (flit a 1 2) (fofZ a 3)
        false false 0 [] [] [] [] false (fofZ a 1) (flit a 1 4) (flit a 1 100) (f0 a).
(** config_parser.hpp:87-90 *)
Definition default_inertial : inertial_settings D := mkINS default_activity (fofZ a 1).
(** config_parser.hpp:32-42 *)
Definition default_output : output_settings := mkOutput None None false true 1 0.
(** config_parser.hpp:92-97 *)
Definition default_network : network_settings := mkNS None 200 10.

(** ** Parsing *)
(** config_parser.cpp:18-37  model_string_to_enum *)
Definition model_string_to_enum (s : text) : res model_kind :=
  if text_eqb s (lit "DeGroot") then Ok DeGroot
  else if text_eqb s (lit "ActivityDriven") then Ok ActivityDriven
  else if text_eqb s (lit "Deffuant") then Ok Deffuant
  else if text_eqb s (lit "ActivityDrivenInertial") then Ok ActivityDrivenInertial
  else Throw ExRuntime.

(** config_parser.cpp:73-96  push_back_bot_array for a std::vector<T>; [of_int] and [of_float] are the
    implicit conversions of push_back's argument. Allocation of the default vector is taken to
    succeed. *)
Definition push_back_bot_array {T} (of_int : Z -> T) (of_float : D -> res T) (node : option (toml D))
           (options_array : list T) (n_bots : nat) (default_value : T) : res (list T) :=
  match node with
  | Some (TArray l) =>
      for_each l (fun elem acc =>
        match elem with
        | TInt z => Ok (acc ++ [of_int z])
        | TFloat x => v <- of_float x ;; Ok (acc ++ [v])
        | _ => Ok acc
        end) options_array
  | _ => Ok (repeat default_value n_bots)
  end.
(** int64_t to int (modulo 2^32), double to int (undefined when the truncated value does not fit) *)
Definition int_of_int64 (z : Z) : Z := to_int32 z.
Definition int_of_double (x : D) : res Z :=
  match trunc x with
  | Some z => if in_int z then Ok z else UB UbOther
  | None => UB UbOther
  end.

(** config_parser.cpp:48-107  parse_activity_settings; [sec] is tbl[model_string] *)
Definition parse_activity_settings (st : ad_settings D) (sec : option (toml D)) (tbl : option (toml D))
  : res (ad_settings D) :=
  let dbl v (k : String.string) := set_if_specified v (value_double (at_key sec (lit k))) in
  let flag v (k : String.string) := set_if_specified v (value_bool (at_key sec (lit k))) in
  let dt' := dbl (dt st) "dt"%string in
  let m' := set_if_specified (m st) (value_int (at_key sec (lit "m"))) in
  let eps' := dbl (eps st) "eps"%string in
  let gamma' := dbl (gamma st) "gamma"%string in
  let homophily' := dbl (homophily st) "homophily"%string in
  let reciprocity' := dbl (reciprocity st) "reciprocity"%string in
  let alpha' := dbl (alpha st) "alpha"%string in
  let K' := dbl (K st) "K"%string in
  let mean_activities' := flag (mean_activities st) "mean_activities"%string in
  let mean_weights' := flag (mean_weights st) "mean_weights"%string in
  let covariance_factor' := dbl (covariance_factor st) "covariance_factor"%string in
  let use_reluctances' := flag (use_reluctances st) "reluctances"%string in
  let reluctance_mean' := dbl (reluctance_mean st) "reluctance_mean"%string in
  let reluctance_sigma' := dbl (reluctance_sigma st) "reluctance_sigma"%string in
  let reluctance_eps' := dbl (reluctance_eps st) "reluctance_eps"%string in
  let max_iterations' := value_int (at_key (at_key tbl (lit "model")) (lit "max_iterations")) in
  let n_bots' := set_if_specified (n_bots st) (option_map Z.to_nat (value_size (at_key sec (lit "n_bots")))) in
  bm <- push_back_bot_array int_of_int64 int_of_double (at_key sec (lit "bot_m")) (bot_m st) n_bots' m' ;;
  bo <- push_back_bot_array (fofZ a) (fun x => Ok x) (at_key sec (lit "bot_opinion")) (bot_opinion st) n_bots' (f0 a) ;;
  ba <- push_back_bot_array (fofZ a) (fun x => Ok x) (at_key sec (lit "bot_activity")) (bot_activity st) n_bots' (fofZ a 1) ;;
  bh <- push_back_bot_array (fofZ a) (fun x => Ok x) (at_key sec (lit "bot_homophily")) (bot_homophily st) n_bots' homophily' ;;
  Ok (mkADS max_iterations' dt' m' eps' gamma' alpha' homophily' reciprocity' K'
            mean_activities' mean_weights' n_bots' bm ba bo bh
            use_reluctances' reluctance_mean' reluctance_sigma' reluctance_eps' covariance_factor').

(** config_parser.cpp:134-167  the model settings, by model *)
Definition parse_model_settings (k : model_kind) (model_string : text) (tbl : option (toml D))
  : res (model_settings D) :=
  let sec := at_key tbl model_string in
  let max := value_int (at_key (at_key tbl (lit "model")) (lit "max_iterations")) in
  match k with
  | DeGroot =>
      Ok (DeGrootSettings (mkDGS max
            (set_if_specified (dg_convergence_tol default_degroot) (value_double (at_key sec (lit "convergence"))))))
  | Deffuant =>
      let d := default_deffuant in
      Ok (DeffuantSettings (mkDFS max
            (set_if_specified (df_homophily_threshold d) (value_double (at_key sec (lit "homophily_threshold"))))
            (set_if_specified (df_mu d) (value_double (at_key sec (lit "mu"))))
            (set_if_specified (df_use_network d) (value_bool (at_key sec (lit "use_network"))))
            (set_if_specified (df_use_binary_vector d) (value_bool (at_key sec (lit "binary_vector"))))
            (set_if_specified (df_dim d) (value_size (at_key sec (lit "dim"))))))
  | ActivityDriven =>
      st <- parse_activity_settings default_activity sec tbl ;; Ok (ActivityDrivenSettings st)
  | ActivityDrivenInertial =>
      st <- parse_activity_settings (in_activity default_inertial) sec tbl ;;
      Ok (ActivityDrivenInertialSettings (mkINS st
            (set_if_specified (in_friction default_inertial)
               (value_double (at_key sec (lit "friction_coefficient"))))))
  end.

(** config_parser.cpp:109-175  parse_config_file, after toml::parse_file returned [root];
    [random_seed] is the value std::random_device gave *)
Definition parse_config (root : list (text * toml D)) (random_seed : Z) : res (options D) :=
  let tbl := Some (TTable root) in
  let simulation := at_key tbl (lit "simulation") in
  let io := at_key tbl (lit "io") in
  let seed := set_if_specified random_seed (value_int (at_key simulation (lit "rng_seed"))) in
  let d := default_output in
  let out := mkOutput
    (value_size (at_key io (lit "n_output_agents")))
    (value_size (at_key io (lit "n_output_network")))
    (set_if_specified (print_progress d) (value_bool (at_key io (lit "print_progress"))))
    (set_if_specified (output_initial d) (value_bool (at_key io (lit "output_initial"))))
    (set_if_specified (start_output d) (value_size (at_key io (lit "start_output"))))
    (set_if_specified (start_numbering_from d) (value_size (at_key io (lit "start_numbering_from")))) in
  match value_string (at_key simulation (lit "model")) with
  | None => Throw ExRuntime
  | Some model_string =>
      k <- model_string_to_enum model_string ;;
      settings <- parse_model_settings k model_string tbl ;;
      let net := at_key tbl (lit "network") in
      let n := default_network in
      Ok (mkOptions k model_string seed out settings
            (mkNS (net_file n)
               (set_if_specified (net_n_agents n) (value_size (at_key net (lit "number_of_agents"))))
               (set_if_specified (net_n_connections n) (value_size (at_key net (lit "connections_per_agent"))))))
  end.

(** ** Validation *)
(** config_parser.cpp:181-195  check *)
Definition check (condition : bool) : res unit := if condition then Ok tt else Throw ExRuntime.
Definition g_zero (x : D) : bool := flt a (fofZ a 0) x.
Definition geq_zero (x : D) : bool := fle a (fofZ a 0) x.

(** config_parser.cpp:206-228  validate_activity; size_t comparisons *)
Definition validate_activity (st : ad_settings D) : res unit :=
  _ <- check (g_zero (dt st)) ;;
  _ <- check (0 <=? m st)%Z ;;
  _ <- check (g_zero (eps st)) ;;
  _ <- check (flt a (fofZ a 2) (gamma st)) ;;
  _ <- check (geq_zero (alpha st)) ;;
  _ <- check (geq_zero (reciprocity st)) ;;
  _ <- check (g_zero (reluctance_mean st)) ;;
  _ <- check (g_zero (reluctance_sigma st)) ;;
  _ <- check (g_zero (reluctance_eps st)) ;;
  _ <- check (fle a (fofZ a (-1)) (covariance_factor st) && fle a (covariance_factor st) (fofZ a 1)) ;;
  _ <- check (n_bots st <=? length (bot_m st)) ;;
  _ <- check (n_bots st <=? length (bot_activity st)) ;;
  _ <- check (n_bots st <=? length (bot_opinion st)) ;;
  check (n_bots st <=? length (bot_homophily st)).

(** config_parser.cpp:197-262  validate_settings *)
Definition validate_settings (o : options D) : res unit :=
  _ <- check (0 <? start_output (opt_output o))%Z ;;
  _ <- check (0 <=? start_numbering_from (opt_output o))%Z ;;
  match opt_model o with
  | ActivityDriven => st <- get_activity_driven (opt_settings o) ;; validate_activity st
  | ActivityDrivenInertial =>
      st <- get_inertial (opt_settings o) ;;
      _ <- check (geq_zero (in_friction st)) ;;
      validate_activity (in_activity st)
  | DeGroot =>
      st <- get_degroot (opt_settings o) ;; check (geq_zero (dg_convergence_tol st))
  | Deffuant =>
      st <- get_deffuant (opt_settings o) ;;
      _ <- check (g_zero (df_homophily_threshold st)) ;;
      _ <- check (fle a (fofZ a 0) (df_mu st) && fle a (df_mu st) (fofZ a 1)) ;;
      _ <- check (0 <? df_dim st)%Z ;;
      if negb (df_use_binary_vector st) then check (df_dim st =? 1)%Z else Ok tt
  end.

(** config_parser.cpp:264-344  print_settings: printing itself is not modelled, only the std::get of
    the variant, which could throw *)
Definition print_settings (o : options D) : res unit :=
  match opt_model o with
  | ActivityDriven => _ <- get_activity_driven (opt_settings o) ;; Ok tt
  | ActivityDrivenInertial => _ <- get_inertial (opt_settings o) ;; Ok tt
  | DeGroot => _ <- get_degroot (opt_settings o) ;; Ok tt
  | Deffuant => _ <- get_deffuant (opt_settings o) ;; Ok tt
  end.
End Config.
