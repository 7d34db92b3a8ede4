(** Properties of the construction of a [Wavelet].  Throughout: [typestr] gives the [str] of type
    objects in a dictionary, [checks] stands for what a wavelet function checks besides names and
    dtype, [G] is the parsed configs.ini. *)
From Coq Require Import Ascii String Reals.
From Verif Require Import Py Config ConfigProofs WaveletInit WaveletInitThms.
Local Open Scope string_scope.

(** a configuration like the pinned one, two wavelets of it *)
Definition some_G : config :=
  [("wavelets", [("morlet", [("mu", PFloat 13); ("dtype", PStr "float32")]);
                 ("bump", [("mu", PFloat 5); ("s", PFloat 1); ("om", PFloat 0); ("dtype", PStr "float32")])]);
   ("_gmw", [("gmw", [("gamma", PFloat 3); ("beta", PFloat 60); ("norm", PStr "bandpass"); ("order", PFloat 0);
                      ("centered_scale", PBool false); ("dtype", PStr "float32")])])].
Definition no_types (n : nat) : option string := None.
Definition no_checks (s : string) (o : dict pyv) : res unit := Ok tt.
Ltac nodup := repeat (constructor; [cbn; intros F; repeat (destruct F as [F|F]; [discriminate F|]); exact F|]); constructor.

(** * C96: the dtype asked for *)

(** a string, an [np.dtype] or a [torch.dtype] *)
Theorem C96_given_partial typestr checks G n opts d s : allowed G n opts -> means d s -> ~ norm_energy G n opts ->
  (forall o, checks (lower n) o = Ok tt) ->
  exists w, init typestr checks G (STuple (FName n) opts) (Some d) = Ok w /\ w_dtype w = s /\ dget "dtype" (w_config w) = Some (PStr s).
Proof. exact (dtype_given typestr checks G n opts d s). Qed.
Print Assumptions C96_given_partial.

(** without [dtype]: the one among the parameters, else that of configs.ini *)
Theorem C96_default typestr checks G n opts w s : NoDup (keys opts) -> good G (lower n) ->
  init typestr checks G (STuple (FName n) opts) None = Ok w -> ~ norm_energy G n opts ->
  chosen (listed G (lower n)) opts "dtype" = Some (PStr s) -> In s dtypes -> w_dtype w = s.
Proof. exact (dtype_default typestr checks G n opts w s). Qed.
Print Assumptions C96_default.

(** [norm='energy'], whatever is asked for *)
Theorem C96_energy typestr checks G n opts d w : NoDup (keys opts) -> good G (lower n) ->
  init typestr checks G (STuple (FName n) opts) d = Ok w -> norm_energy G n opts ->
  w_dtype w = "float64" /\ dget "dtype" (w_config w) = Some (PStr "float64").
Proof. exact (dtype_energy typestr checks G n opts d w). Qed.
Print Assumptions C96_energy.

(** [dtype=np.float32] or [np.float64] never works *)
Theorem C96_np_type_refuted typestr checks G n opts s w : NoDup (keys opts) -> good G (lower n) -> In s dtypes -> ~ norm_energy G n opts ->
  init typestr checks G (STuple (FName n) opts) (Some (np_type s)) <> Ok w.
Proof. exact (np_type_fails typestr checks G n opts s w). Qed.
Print Assumptions C96_np_type_refuted.

(** for a function the argument is ignored *)
Theorem C96_function_refuted typestr checks G : exists out d s w, means d s /\
  init typestr checks G (SFun (Ok out)) (Some d) = Ok w /\ w_dtype w <> s.
Proof.
  exists "float32", (DStr "float64"), "float64", (W User [] "float32"). split; [split; [left; reflexivity|right; left; reflexivity]|].
  split; [reflexivity|discriminate].
Qed.
Print Assumptions C96_function_refuted.
Theorem C96_function typestr checks G out d w : init typestr checks G (SFun (Ok out)) d = Ok w ->
  w_dtype w = real_of out /\ w_config w = [].
Proof. exact (function_dtype typestr checks G out d w). Qed.
Print Assumptions C96_function.

(** 'bump' takes a dtype that is not one of [Wavelet.DTYPES] *)
Theorem C96_supported_refuted typestr : exists w,
  init typestr no_checks some_G (SName "bump") (Some (np_dtype "complex64")) = Ok w /\ w_dtype w = "complex64".
Proof. eexists. split; [reflexivity|reflexivity]. Qed.
Print Assumptions C96_supported_refuted.

Example C96_case : exists w, init no_types no_checks some_G (STuple (FName "Morlet") [("mu", PFloat 7)]) (Some (DStr "float64")) = Ok w /\
  w_dtype w = "float64".
Proof.
  destruct (C96_given_partial no_types no_checks some_G "Morlet" [("mu", PFloat 7)] (DStr "float64") "float64") as (w & H & E & _); eauto.
  - split; [cbn; tauto|]. split; [unfold good; cbn; nodup|]. split; [nodup|]. split.
    + intros k [<-|[]]. left. reflexivity.
    + intros k H. exact H.
  - split; [left; reflexivity|right; left; reflexivity].
  - discriminate.
Qed.
Example C96_energy_case : exists w, init no_types no_checks some_G (STuple (FName "gmw") [("norm", PStr "energy")]) (Some (DStr "float32")) = Ok w /\
  w_dtype w = "float64".
Proof. eexists. split; reflexivity. Qed.
Example C96_np_type_case : init no_types no_checks some_G (SName "gmw") (Some (np_type "float64")) = Err ValueError /\
  init no_types no_checks some_G (SName "bump") (Some (np_type "float32")) = Err ValueError.
Proof. split; reflexivity. Qed.

(** * C97: the configuration *)

(** each parameter is the caller's unless [None] or missing, else that of configs.ini; nothing else
    is added *)
Theorem C97_config typestr checks G n opts d w : NoDup (keys opts) -> good G (lower n) ->
  init typestr checks G (STuple (FName n) opts) d = Ok w ->
  w_fn w = Builtin (lower n) /\ NoDup (keys (w_config w)) /\
  (forall k, k <> "dtype" -> dget k (w_config w) = chosen (listed G (lower n)) opts k) /\
  (forall k, In k (keys (w_config w)) <-> In k (keys opts) \/ In k (keys (listed G (lower n))) \/ (k = "dtype" /\ has "dtype" (w_config w) = true)).
Proof. exact (config_spec typestr checks G n opts d w). Qed.
Print Assumptions C97_config.

Theorem C97_names typestr checks G n m opts d : lower n = lower m ->
  init typestr checks G (STuple (FName n) opts) d = init typestr checks G (STuple (FName m) opts) d.
Proof. exact (names_case typestr checks G n m opts d). Qed.
Print Assumptions C97_names.

Theorem C97_unknown typestr checks G n opts d s : ~ In (lower n) supported -> (forall k, In k (keys opts) -> ~ In k reserved) ->
  (d = None \/ exists x, d = Some x /\ process_dtype x = Ok s) ->
  init typestr checks G (STuple (FName n) opts) d = Err ValueError.
Proof. exact (unknown_name typestr checks G n opts d s). Qed.
Print Assumptions C97_unknown.

(** an object built again from its own configuration is the same *)
Theorem C97_rebuild typestr checks G n opts d w : NoDup (keys opts) -> good G (lower n) ->
  init typestr checks G (STuple (FName n) opts) d = Ok w -> In (w_dtype w) dtypes ->
  init typestr checks G (STuple (FName (lower n)) (w_config w)) None = Ok w.
Proof. exact (rebuild typestr checks G n opts d w). Qed.
Print Assumptions C97_rebuild.

(** the caller's dictionary is left alone with a named wavelet *)
Theorem C97_caller_partial n opts d : opts_after (STuple (FName n) opts) d = opts.
Proof. reflexivity. Qed.
Print Assumptions C97_caller_partial.
(** a tuple that is rejected because its first entry is no string leaves 'dtype' in it *)
Theorem C97_caller_refuted typestr checks G : exists b opts d,
  init typestr checks G (STuple (FObj b) opts) (Some d) = Err ValueError /\ opts_after (STuple (FObj b) opts) (Some d) <> opts.
Proof. exists true, [], (DStr "float32"). split; [reflexivity|discriminate]. Qed.
Print Assumptions C97_caller_refuted.

Example C97_case : exists w, init no_types no_checks some_G (STuple (FName "GMW") [("beta", PFloat 12); ("norm", PNone)]) None = Ok w /\
  w_config w = [("gamma", PFloat 3); ("beta", PFloat 12); ("norm", PStr "bandpass"); ("order", PFloat 0); ("centered_scale", PBool false); ("dtype", PStr "float32")] /\
  init no_types no_checks some_G (STuple (FName "gmw") (w_config w)) None = Ok w.
Proof. eexists. split; [reflexivity|]. split; reflexivity. Qed.
Example C97_unknown_case : init no_types no_checks some_G (SName "haar") None = Err ValueError.
Proof. reflexivity. Qed.

(** * C98: the wavelets of [cwt_higher_order] *)

(** as the one given, but for the order *)
Theorem C98_orders typestr checks G n opts d b w ks ws : NoDup (keys opts) -> good G (lower n) ->
  init typestr checks G (STuple (FName n) opts) d = Ok w -> In (w_dtype w) dtypes -> ~ In PNone ks ->
  order_wavelets typestr checks G b w ks = Ok ws ->
  Forall2 (fun k v => w_fn v = Builtin "gmw" /\ w_dtype v = w_dtype w /\ dget "order" (w_config v) = Some k /\
    forall j, j <> "order" -> dget j (w_config v) = dget j (w_config w)) ks ws.
Proof. exact (orders typestr checks G n opts d b w ks ws). Qed.
Print Assumptions C98_orders.

(** other wavelets are rejected, a function whose name starts with 'gmw' by KeyError *)
Theorem C98_rejected typestr checks G w ks :
  (forall n, w_fn w = Builtin n -> n <> "gmw" -> order_wavelets typestr checks G false w ks = Err ValueError) /\
  (w_fn w = User -> order_wavelets typestr checks G false w ks = Err ValueError /\
     (w_config w = [] -> order_wavelets typestr checks G true w ks = Err KeyError)).
Proof.
  unfold order_wavelets, is_gmw. split.
  - intros n -> Hn. destruct (String.eqb_spec n "gmw"); [contradiction|reflexivity].
  - intros ->. split; [reflexivity|]. intros ->. reflexivity.
Qed.
Print Assumptions C98_rejected.
Example C98_case : exists w ws, init no_types no_checks some_G (STuple (FName "gmw") [("beta", PFloat 12)]) (Some (DStr "float64")) = Ok w /\
  order_wavelets no_types no_checks some_G true w [PFloat 0; PObj 1; PObj 2] = Ok ws /\ List.length ws = 3%nat.
Proof. eexists. eexists. split; [reflexivity|]. split; reflexivity. Qed.
