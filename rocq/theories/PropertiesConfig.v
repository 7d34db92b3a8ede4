(** C41, C42, C62: configured defaults and the choice of threads. *)
From Coq Require Import Ascii String Reals Lra.
From Verif Require Import Py Config ConfigProofs IniProofs ConfigThms.
Local Open Scope string_scope.

(** ** C41 *)
(** For every configuration [c] (distinct names) written to configs.ini with any spacing and
    blank lines, anything after the end mark, every explicit [module.fn] and every keyword
    dictionary: arguments given and not None come back unchanged, None is filled with the listed
    value if there is one and stays None otherwise, [get_all] adds exactly the listed keys that
    are missing, and without [get_all] no key is added.  [default_order] changes only the order:
    listed keys first, as listed, then the others as given. *)
Theorem C41_gdefaults pyfloat c lines rest caller module fn (get_all : bool) as_dict (default_order : bool) kw :
  distinct c -> lays (items_of c) lines -> lacks "."%char fn = true -> NoDup (keys kw) ->
  exists d,
    gdefaults pyfloat (join_nl (lines ++ "#### END" :: rest)) caller (Some (module ++ "." ++ fn)) get_all as_dict default_order kw =
      Ok (if match as_dict with Some b => b | None => get_all end then OutDict d
          else match d with [(_, v)] => OutOne v | _ => OutValues (map snd d) end) /\
    NoDup (keys d) /\
    (forall k, dget k d = match dget k kw, dget k (entries c module fn) with
                          | Some PNone, Some s => Some (process_value pyfloat s)
                          | Some v, _ => Some v
                          | None, Some s => if get_all then Some (process_value pyfloat s) else None
                          | None, None => None
                          end) /\
    let listed := keys (entries c module fn) in
    let ks := if get_all then (keys kw ++ filter (fun k => negb (has k kw)) listed)%list else keys kw in
    keys d = if default_order
             then (filter (fun k => if in_dec string_dec k ks then true else false) listed
                     ++ filter (fun k => if in_dec string_dec k listed then false else true) ks)%list
             else ks.
Proof. exact (gdefaults_spec pyfloat c lines rest caller module fn get_all as_dict default_order kw). Qed.
Print Assumptions C41_gdefaults.

(** The pinned configs.ini is such a text. *)
Example C41_pinned : distinct pinned_config /\ lays (items_of pinned_config) pinned_lines /\
  entries pinned_config "wavelets" "morlet" = [("mu", "13.4"); ("dtype", "float32")] /\
  entries pinned_config "utils.cwt_utils" "make_scales" = [("downsample", "4")].
Proof. split; [exact pinned_distinct|]. split; [exact pinned_lays|]. split; reflexivity. Qed.
(** [Wavelet(('morlet', {'mu': obj}))] *)
Example C41_morlet pyfloat : pyfloat "float32" = None ->
  gdefaults pyfloat pinned_ini ("", "") (Some "wavelets.morlet") true (Some true) true [("mu", PObj 7)] =
  Ok (OutDict [("mu", PObj 7); ("dtype", PStr "float32")]).
Proof.
  intros H. unfold gdefaults. change (split_name "wavelets.morlet") with ("wavelets", "morlet"). unfold pinned_ini.
  rewrite (read_written pyfloat pinned_config pinned_lines pinned_rest pinned_distinct pinned_lays). cbn -[process_value].
  assert (E : process_value pyfloat "float32" = PStr "float32").
  { unfold process_value. change (strip (is_c SQ) (strip (is_c DQ) "float32")) with "float32". rewrite H. reflexivity. }
  rewrite E. reflexivity.
Qed.

(** Without a name the module is that of the calling file, if its stem does not end in one of
    the characters of ".py". *)
Theorem C62_caller_partial dir stem fn : lacks "/"%char stem = true -> rstrip dot_py stem = stem ->
  from_caller (dir ++ "/" ++ stem ++ ".py") fn = (stem, fn).
Proof. exact (from_caller_spec dir stem fn). Qed.
Print Assumptions C62_caller_partial.
Example C62_caller_case : from_caller "/x/ssqueezepy/_stft.py" "stft" = ("_stft", "stft").
Proof. reflexivity. Qed.
(** Finding: [rstrip('.py')] also removes the end of other stems; the listed value is not
    found. *)
Theorem C62_caller_refuted : exists c lines, distinct c /\ lays (items_of c) lines /\ entries c "happy" "f" = [("x", "abc")] /\
  forall pyfloat, gdefaults pyfloat (join_nl (lines ++ ["#### END"])) ("/d/happy.py", "f") None false None false [("x", PNone)] = Ok (OutOne PNone).
Proof.
  exists happy_config, happy_lines. split; [exact happy_distinct|]. split; [exact happy_lays|]. split; [reflexivity|]. intros pyfloat.
  unfold gdefaults. change (from_caller (fst ("/d/happy.py", "f")) (snd ("/d/happy.py", "f"))) with ("ha", "f").
  rewrite (read_written pyfloat happy_config happy_lines [] happy_distinct happy_lays). reflexivity.
Qed.
Print Assumptions C62_caller_refuted.

(** ** C42 *)
(** [IS_PARALLEL()]: off if SSQ_PARALLEL is "0" or the configured value equals 0. *)
Theorem C42_global_default pyfloat c lines rest env : distinct c -> lays (items_of c) lines ->
  is_parallel pyfloat (join_nl (lines ++ "#### END" :: rest)) env =
  Ok (if match env with Some s => String.eqb s "0" | None => false end then false
      else match dget "parallel" (entries c "configs" "IS_PARALLEL") with
           | Some s => negb (eq_zero (process_value pyfloat s))
           | None => true
           end).
Proof. exact (is_parallel_spec pyfloat c lines rest env). Qed.
Print Assumptions C42_global_default.

(** [parallel=False] is honoured, whatever the environment variable and configs.ini, by
    indexed_sum (and replace_under_abs, zero_denormals); [None] follows [IS_PARALLEL()]
    everywhere; [True] gives threads on the CPU. *)
Theorem C42_honoured_partial pyfloat ini env : let isp := is_parallel pyfloat ini env in
  indexed_sum_kernel isp (Some false) = Ok Serial /\
  replace_under_abs_kernel isp false (Some false) = Ok Serial /\
  zero_denormals_kernel isp (Some false) = Ok Serial /\
  (indexed_sum_kernel isp (Some true) = Ok Threads /\ ssq_kernel isp false (Some true) = Ok Threads /\
   phase_cwt_kernel isp DTrig false (Some true) = Ok Threads /\ phase_stft_kernel isp false (Some true) = Ok Threads /\
   buffer_kernel isp false (Some true) = Ok Threads) /\
  forall b, isp = Ok b ->
    indexed_sum_kernel isp None = Ok (pick b) /\ ssq_kernel isp false None = Ok (pick b) /\
    phase_cwt_kernel isp DTrig false None = Ok (pick b) /\ phase_cwt_kernel isp DPhase false None = Ok (pick b) /\
    phase_stft_kernel isp false None = Ok (pick b) /\ buffer_kernel isp false None = Ok (pick b).
Proof. cbv zeta. repeat (split; [reflexivity|]). split; [repeat split|]. intros b E. rewrite E. repeat split. Qed.
Print Assumptions C42_honoured_partial.

(** Finding: ssqueeze_fast, indexed_sum_onfly, phase_cwt, phase_stft and buffer use
    [parallel or IS_PARALLEL()]: with the global default on, [parallel=False] runs threads.  The
    pinned configs.ini with no environment variable is such a case. *)
Theorem C42_false_ignored_refuted : exists ini, forall pyfloat, pyfloat "1" = Some 1%R ->
  let isp := is_parallel pyfloat ini None in
  ssq_kernel isp false (Some false) = Ok Threads /\ phase_cwt_kernel isp DTrig false (Some false) = Ok Threads /\
  phase_cwt_kernel isp DPhase false (Some false) = Ok Threads /\
  phase_stft_kernel isp false (Some false) = Ok Threads /\ buffer_kernel isp false (Some false) = Ok Threads.
Proof.
  exists pinned_ini. intros pyfloat H. cbv zeta. unfold pinned_ini.
  rewrite (is_parallel_spec pyfloat pinned_config pinned_lines pinned_rest None pinned_distinct pinned_lays).
  change (dget "parallel" (entries pinned_config "configs" "IS_PARALLEL")) with (Some "1"). cbn iota beta.
  assert (E : eq_zero (process_value pyfloat "1") = false).
  { unfold process_value. change (strip (is_c SQ) (strip (is_c DQ) "1")) with "1". change (String.eqb "1" "None") with false.
    change (String.eqb "1" "True") with false. change (String.eqb "1" "False") with false. cbn iota. rewrite H. cbn.
    destruct (Req_EM_T 1 0); [lra|reflexivity]. }
  rewrite E. repeat split.
Qed.
Print Assumptions C42_false_ignored_refuted.

(** Finding: SSQ_PARALLEL="1" does not override [parallel=0] in configs.ini. *)
Theorem C42_env_on_refuted : exists c lines, distinct c /\ lays (items_of c) lines /\
  forall pyfloat, pyfloat "0" = Some 0%R -> is_parallel pyfloat (join_nl (lines ++ ["#### END"])) (Some "1") = Ok false.
Proof.
  exists [("configs", [("IS_PARALLEL", [("parallel", "0")])])], ["## configs"; "# IS_PARALLEL"; "parallel=0"].
  assert (HD : distinct [("configs", [("IS_PARALLEL", [("parallel", "0")])])]).
  { split; [cbn; nodup|]. repeat (constructor; [split; [cbn; nodup|repeat (constructor; [cbn; nodup|]); constructor]|]). constructor. }
  assert (HL : lays (items_of [("configs", [("IS_PARALLEL", [("parallel", "0")])])]) ["## configs"; "# IS_PARALLEL"; "parallel=0"])
    by (cbn; repeat first [apply l_nil | apply l_item; [wl|]]).
  split; [exact HD|]. split; [exact HL|]. intros pyfloat H. rewrite (is_parallel_spec pyfloat _ _ [] (Some "1") HD HL).
  change (dget "parallel" (entries _ "configs" "IS_PARALLEL")) with (Some "0"). change (String.eqb "1" "0") with false. cbn iota.
  unfold process_value. change (strip (is_c SQ) (strip (is_c DQ) "0")) with "0". change (String.eqb "0" "None") with false.
  change (String.eqb "0" "True") with false. change (String.eqb "0" "False") with false. cbn iota. rewrite H. cbn.
  destruct (Req_EM_T 0 0); [reflexivity|lra].
Qed.
Print Assumptions C42_env_on_refuted.
