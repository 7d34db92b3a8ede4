(** Properties of the test signals ([TestSignals]). *)
From Coq Require Import Ascii String Reals Lra ZifyBool ZifyNat.
From Verif Require Import Py Round Cplx Squeeze Scales SsqueezeProofs Search Chirp ChirpProofs Config Signals SignalsThms SignalsThms2 SignalsThms3
  SearchProofs MakeSignals MakeSignalsThms MakeSignalsThms2.
Local Open Scope R_scope.
Local Open Scope string_scope.

(** * C83: the automatic [N] of a sweep *)

(** missing: negative frequencies, [echirp] ending at 0 (raises) *)
Theorem C83_no_alias_partial fn s fmin fmax k : let tmin := kw_tmin s k in let tmax := kw_tmax s k in
  In fn [lchirp_fn; echirp_fn; echirp_pc_fn; hchirp_fn] -> fn = lchirp_fn \/ 0 < fmin -> tmax <> 0 ->
  tmin < tmax -> 0 <= fmin < fmax ->
  exists c t, fn tmin tmax fmin fmax = Ok c /\ sweeps c tmin tmax fmin fmax /\
    generate fn s None fmin (Some fmax) k = Ok (map (fun t => cos (fst c t)) t, t) /\
    Z.of_nat (length t) = Rceil (1 + 2 * fmax * (tmax - tmin)) /\
    (2 <= length t)%nat /\
    (forall i, (i < length t)%nat -> tmin <= nth i t 0 <= tmax) /\
    (forall i, (S i < length t)%nat ->
       nth (S i) t 0 - nth i t 0 = step tmin tmax (Z.of_nat (length t)) (kw_end s k) /\
       0 <= fst c (nth (S i) t 0) - fst c (nth i t 0) <= PI) /\
    fmax <= / step tmin tmax (Z.of_nat (length t)) (kw_end s k) / 2.
Proof. exact (auto_N_all fn s fmin fmax k). Qed.
Print Assumptions C83_no_alias_partial.

(** fewer samples (endpoint included): the last frequency exceeds half the rate *)
Theorem C83_least_partial fmax tmin tmax N M : tmin < tmax -> 0 < fmax -> N = Rceil (1 + 2 * fmax * (tmax - tmin)) ->
  (2 <= M < N)%Z -> / step tmin tmax M true / 2 < fmax.
Proof. exact (auto_N_least fmax tmin tmax N M). Qed.
Print Assumptions C83_least_partial.

(** though fewer may do: consecutive phases never differ by more than pi *)
Theorem C83_least_refuted : exists x t c, generate lchirp_fn ts0 None 0 (Some 1) (TK None None None) = Ok (x, t) /\ length t = 3%nat /\
  generate lchirp_fn ts0 (Some 2%Z) 0 (Some 1) (TK None None None) = Ok (map (fun t => cos (fst c t)) [0; 1], [0; 1]) /\
  sweeps c 0 1 0 1 /\ fst c 1 - fst c 0 <= PI.
Proof. exact auto_N_more. Qed.
Print Assumptions C83_least_refuted.

(** and without the endpoint, one fewer always does for half the rate *)
Theorem C83_open_end_refuted : exists t, times 0 1 2 false = Ok t /\ Rceil (1 + 2 * 1 * (1 - 0)) = 3%Z /\ 1 <= / step 0 1 2 false / 2.
Proof. exact open_end_more. Qed.
Print Assumptions C83_open_end_refuted.

(** from -10 to 0 Hz: a single sample *)
Theorem C83_negative_refuted : exists x t, generate lchirp_fn ts0 None (Ropp 10) (Some 0) (TK None None None) = Ok (x, t) /\ length t = 1%nat.
Proof. exact negative_frequencies. Qed.
Print Assumptions C83_negative_refuted.

(** the default [fmax], [N//2], is below half the rate exactly when the duration is at most 1 *)
Theorem C83_default_fmax_partial tmin tmax N : tmin < tmax -> (2 <= N)%Z -> Z.even N = true ->
  IZR (N / 2) <= / step tmin tmax N false / 2 <-> tmax - tmin <= 1.
Proof. exact (default_fmax tmin tmax N). Qed.
Print Assumptions C83_default_fmax_partial.

Example C83_case : exists x t, generate hchirp_fn ts0 None 1 (Some 4) (TK (Some 1) (Some 3) (Some false)) = Ok (x, t) /\
  length t = 17%nat.
Proof.
  destruct (C83_no_alias_partial hchirp_fn ts0 1 4 (TK (Some 1) (Some 3) (Some false))) as (c & t & _ & _ & E & Hl & _).
  - cbn; tauto.
  - right; lra.
  - cbn; lra.
  - cbn; lra.
  - lra.
  - do 2 eexists. split; [exact E|]. cbn in Hl. replace (1 + 2 * 4 * (3 - 1)) with (IZR 17) in Hl by ring. rewrite ceil_int in Hl. lia.
Qed.

(** * C84: parallel chirps *)

Theorem C84_sum p s f0 N u1 v1 u2 v2 k a1 b1 a2 b2 c1 c2 : let n := or_N s N in (0 <= n)%Z ->
  par_freqs p n f0 u1 v1 u2 v2 = (a1, b1, a2, b2) ->
  par_fn p (kw_tmin s k) (kw_tmax s k) a1 b1 = Ok c1 -> par_fn p (kw_tmin s k) (kw_tmax s k) a2 b2 = Ok c2 ->
  exists x t, par_chirp p s f0 N u1 v1 u2 v2 k = Ok (x, t) /\ length x = Z.to_nat n /\ length t = Z.to_nat n /\
    times (kw_tmin s k) (kw_tmax s k) n (kw_end s k) = Ok t /\
    forall i, (i < length t)%nat -> nth i x 0 = cos (fst c1 (nth i t 0)) + cos (fst c2 (nth i t 0)).
Proof. exact (par_sum p s f0 N u1 v1 u2 v2 k a1 b1 a2 b2 c1 c2). Qed.
Print Assumptions C84_sum.

Theorem C84_explicit p N f0 a1 b1 a2 b2 : par_freqs p N f0 (Some a1) (Some b1) (Some a2) (Some b2) = (a1, b1, a2, b2).
Proof. exact (par_explicit p N f0 a1 b1 a2 b2). Qed.
Print Assumptions C84_explicit.

(** missing: either second frequency given alone *)
Theorem C84_order_partial p N fmin0 fmin1 fmax1 a1 b1 a2 b2 : (0 < N)%Z ->
  (p <> ParL -> 0 < or_default fmin1 fmin0 /\ 0 < or_default fmax1 1) ->
  match fmax1 with Some f => f < IZR N / 2 | None => True end ->
  par_freqs p N fmin0 fmin1 fmax1 None None = (a1, b1, a2, b2) ->
  a1 = or_default fmin1 fmin0 /\ (forall f, fmax1 = Some f -> b1 = f) /\ a1 < a2 /\ b1 < b2 /\ b2 <= IZR N / 2.
Proof. exact (par_order p N fmin0 fmin1 fmax1 a1 b1 a2 b2). Qed.
Print Assumptions C84_order_partial.

(** an [fmax2] without an [fmax1] is not used *)
Theorem C84_fmax2_refuted p s f0 N a1 a2 f k : par_chirp p s f0 N a1 None a2 (Some f) k = par_chirp p s f0 N a1 None a2 None k.
Proof. exact (par_fmax2 p s f0 N a1 a2 f k). Qed.
Print Assumptions C84_fmax2_refuted.

Example C84_case : let '(a1, b1, a2, b2) := par_freqs ParE 64 1 None (Some 10) None None in a1 < a2 /\ b1 < b2 /\ b2 <= 32.
Proof.
  destruct (par_freqs ParE 64 1 None (Some 10) None None) as [[[a1 b1] a2] b2] eqn:E.
  destruct (C84_order_partial ParE 64 1 None (Some 10) a1 b1 a2 b2) as (_ & _ & H1 & H2 & H3); try exact E; try lia.
  - intros _. cbn. lra.
  - cbv beta iota. lra.
  - split; [exact H1|]. split; [exact H2|lra].
Qed.
Example C84_case_sum : exists x t, par_chirp ParL ts0 0 (Some 8%Z) None None None None (TK None None None) = Ok (x, t) /\ length x = 8%nat.
Proof.
  destruct (par_freqs ParL 8 0 None None None None) as [[[a1 b1] a2] b2] eqn:E.
  destruct (C84_sum ParL ts0 0 (Some 8%Z) None None None None (TK None None None) a1 b1 a2 b2 _ _ ltac:(cbn; lia) E eq_refl eq_refl)
    as (x & t & H & Hl & _). exists x, t. split; [exact H|exact Hl].
Qed.

(** * C85: amplitude modulators *)

Theorem C85_tone g s N f amin amax phi k a t : (forall x, Ropp 1 <= g x <= 1) -> amin <= amax ->
  am_tone g s N f amin amax phi k = Ok (a, t) -> in_band amin amax a /\ length a = Z.to_nat (or_N s N).
Proof. exact (am_tone_band g s N f amin amax phi k a t). Qed.
Print Assumptions C85_tone.

Theorem C85_exp s N amin amax k a t : kw_tmin s k < kw_tmax s k -> 0 < amin < amax ->
  am_exp s N amin amax k = Ok (a, t) ->
  in_band amin amax a /\ length a = Z.to_nat (or_N s N) /\
  ((0 < or_N s N)%Z -> nth 0 a 0 = amin) /\ ((2 <= or_N s N)%Z -> kw_end s k = true -> nth (length a - 1) a 0 = amax).
Proof. exact (am_exp_band s N amin amax k a t). Qed.
Print Assumptions C85_exp.

Theorem C85_gauss s N amin amax k a t : amin <= amax ->
  am_gauss s N amin amax k = Ok (a, t) ->
  in_band amin amax a /\ length a = Z.to_nat (or_N s N) /\
  (forall i, (i < length a)%nat -> nth i a 0 = nth (length a - 1 - i) a 0) /\
  (forall i j, (i <= j)%nat -> (2 * j + 1 <= length a)%nat -> nth i a 0 <= nth j a 0) /\
  (forall j, length a = (2 * j + 1)%nat -> nth j a 0 = amax).
Proof. exact (am_gauss_band s N amin amax k a t). Qed.
Print Assumptions C85_gauss.

Example C85_case : exists a t, am_tone cos ts0 None 4 (1 / 10) 1 0 (TK None None None) = Ok (a, t) /\ length a = 512%nat /\ in_band (1 / 10) 1 a.
Proof.
  destruct (am_tone cos ts0 None 4 (1 / 10) 1 0 (TK None None None)) as [[a t]|] eqn:E; [|discriminate].
  destruct (C85_tone cos ts0 None 4 (1 / 10) 1 0 (TK None None None) a t) as (H & Hl); try exact E.
  - intros x. pose proof (COS_bound x). lra.
  - lra.
  - exists a, t. split; [reflexivity|]. split; [exact Hl|exact H].
Qed.
Example C85_case_exp : exists a t, am_exp ts0 (Some 5%Z) (1 / 10) 1 (TK None None None) = Ok (a, t) /\ nth 0 a 0 = 1 / 10 /\ nth 4 a 0 = 1.
Proof.
  destruct (am_exp ts0 (Some 5%Z) (1 / 10) 1 (TK None None None)) as [[a t]|e] eqn:E.
  - destruct (C85_exp ts0 (Some 5%Z) (1 / 10) 1 (TK None None None) a t) as (_ & Hl & H0 & H1); try exact E; try (cbn; lra).
    exists a, t. split; [reflexivity|]. change (length a = 5%nat) in Hl. rewrite Hl in H1. split; [apply H0; cbn; lia|apply H1; [cbn; lia|reflexivity]].
  - exfalso. revert E. unfold am_exp, process_params, times, echirp_fn, echirp. cbn [ts0 or_N Z.ltb Z.compare bind or_default k_tmin k_tmax d_tmin d_tmax ts_tkw default_tkw].
    destruct (Req_EM_T 1 0); [lra|]. discriminate.
Qed.
Example C85_case_gauss : exists a t, am_gauss ts0 (Some 5%Z) 0 1 (TK None None None) = Ok (a, t) /\ nth 2 a 0 = 1 /\ nth 0 a 0 = nth 4 a 0.
Proof.
  destruct (am_gauss ts0 (Some 5%Z) 0 1 (TK None None None)) as [[a t]|] eqn:E; [|discriminate].
  destruct (C85_gauss ts0 (Some 5%Z) 0 1 (TK None None None) a t ltac:(lra) E) as (_ & Hl & Hs & _ & Hc).
  change (length a = 5%nat) in Hl. exists a, t. split; [reflexivity|]. split; [now apply (Hc 2%nat)|].
  rewrite (Hs 0%nat) by lia. now rewrite Hl.
Qed.

(** * C86: frequency jumps and packed tones *)

(** missing: [N] samples when the number of frequencies does not divide [N] *)
Theorem C86_jumps_partial s N freqs k x t : jumps s N freqs k = Ok (x, t) ->
  let n := n_freqs freqs in let M := (or_N s N / Z.of_nat n)%Z in
  (0 < n)%nat /\ length x = length t /\ Z.of_nat (length x) = (Z.of_nat n * M)%Z /\
  (or_N s N - Z.of_nat n < Z.of_nat (length x) <= or_N s N)%Z /\
  forall i j, (i < n)%nat -> (Z.of_nat j < M)%Z ->
    let q := (i * Z.to_nat M + j)%nat in
    nth q x 0 = cos (2 * PI * nth i (jump_freqs M freqs) 0 * nth q t 0).
Proof. exact (jumps_shape s N freqs k x t). Qed.
Print Assumptions C86_jumps_partial.

(** missing: [tmin] other than 0 *)
Theorem C86_jumps_times_partial s N freqs k x t : kw_tmin s k = 0 -> kw_end s k = false -> jumps s N freqs k = Ok (x, t) ->
  let n := n_freqs freqs in let M := (or_N s N / Z.of_nat n)%Z in
  forall i j, (i < n)%nat -> (Z.of_nat j < M)%Z -> (2 <= Z.of_nat n * M)%Z ->
  nth (i * Z.to_nat M + j) t 0 = INR i * kw_tmax s k + INR j * (kw_tmax s k / IZR M).
Proof. exact (jumps_times s N freqs k x t). Qed.
Print Assumptions C86_jumps_times_partial.

Theorem C86_jumps_length_refuted : exists x t, jumps ts0 (Some 10%Z) None (TK None None None) = Ok (x, t) /\ length x = 8%nat.
Proof. exact jumps_short. Qed.
Print Assumptions C86_jumps_length_refuted.

Theorem C86_jumps_times_refuted : exists x t, jumps ts0 (Some 2%Z) (Some [5]) (TK (Some 2) (Some 3) None) = Ok (x, t) /\ nth 1 t 0 < nth 0 t 0.
Proof. exact jumps_backwards. Qed.
Print Assumptions C86_jumps_times_refuted.

(** missing: an overlap of no samples *)
Theorem C86_packed_partial s N freqs overlap k x t : packed s N freqs overlap k = Ok (x, t) ->
  let n := length t in let No := py_int (overlap * INR n) in let fs := packed_freqs (or_N s N) freqs in
  (0 < No)%Z -> length x = n /\
  forall j, (j < n)%nat -> nth j x 0 =
    Rsum (length fs) (fun i => if covers n No i j then cos (2 * PI * nth i fs 0 * nth j t 0) else 0).
Proof. exact (packed_spec s N freqs overlap k x t). Qed.
Print Assumptions C86_packed_partial.

(** with no overlap the second of two tones covers everything *)
Theorem C86_packed_refuted : exists x t, packed ts0 (Some 2%Z) (Some [1; 0]) 0 (TK None None None) = Ok (x, t) /\ x = [1; 1].
Proof. exact packed_zero. Qed.
Print Assumptions C86_packed_refuted.

Example C86_case : exists x t, jumps ts0 (Some 8%Z) None (TK None (Some 2) (Some false)) = Ok (x, t) /\ length x = 8%nat /\ nth 6 t 0 = 6.
Proof.
  destruct (jumps ts0 (Some 8%Z) None (TK None (Some 2) (Some false))) as [[x t]|] eqn:E; [|discriminate].
  destruct (C86_jumps_partial _ _ _ _ _ _ E) as (_ & _ & Hl & _).
  pose proof (C86_jumps_times_partial ts0 (Some 8%Z) None (TK None (Some 2) (Some false)) x t eq_refl eq_refl E 3%nat 0%nat
    ltac:(cbn; lia) ltac:(cbn; lia) ltac:(cbn; lia)) as H.
  change (nth 6 t 0 = INR 3 * 2 + INR 0 * (2 / IZR 2)) in H. change (Z.of_nat (length x) = 8)%Z in Hl.
  exists x, t. split; [reflexivity|]. split; [lia|]. rewrite H. cbn [INR]. lra.
Qed.
Example C86_case_packed : exists x t, packed ts0 (Some 8%Z) (Some [1; 2]) (3 / 4) (TK None None None) = Ok (x, t) /\ nth 0 x 0 = 1.
Proof.
  destruct (packed ts0 (Some 8%Z) (Some [1; 2]) (3 / 4) (TK None None None)) as [[x t]|] eqn:E; [|discriminate].
  pose proof E as E0. unfold packed in E0. cbn [process_params or_N ts0 times Z.ltb Z.compare bind or_default k_end k_tmin k_tmax d_end d_tmin d_tmax ts_tkw default_tkw] in E0.
  injection E0 as _ Et. assert (Hl : length t = 8%nat) by (subst t; unfold linspace; cbn; now rewrite ?tab_length).
  assert (H0 : nth 0 t 0 = 0) by (subst t; unfold linspace; rewrite nth_tab by (change (Z.to_nat 8) with 8%nat; lia); cbn [INR]; destruct (_ =? 1)%nat; ring).
  assert (HN : py_int (3 / 4 * INR (length t)) = 6%Z).
  { rewrite Hl. replace (3 / 4 * INR 8) with (IZR 6) by (cbn; lra). apply py_int_IZR; lia. }
  pose proof (C86_packed_partial ts0 (Some 8%Z) (Some [1; 2]) (3 / 4) (TK None None None) x t E) as H. cbv zeta in H. rewrite HN, Hl in H.
  destruct (H ltac:(lia)) as (_ & Hx). exists x, t. split; [reflexivity|]. rewrite Hx by lia. cbn -[Rmult Rplus PI cos]. rewrite H0, Rmult_0_r, cos_0. ring.
Qed.

(** * C87: make_signals *)

(** parameters: the request's, else the defaults' *)
Theorem C87_carrier_params s c rest f a name' f' a' : defaults_ok s ->
  let name := if Ascii.eqb c "#" then rest else String c rest in
  contains "am-" name = false ->
  process_one s (RFull (String c rest) f a) = Ok (name', f', a') ->
  name' = String c rest /\ a' = a /\
  forall k, dget k f' = match dget k f with
                        | Some u => Some u
                        | None => match dget name (m_defaults s) with Some (D1 d) => dget k d | _ => None end
                        end.
Proof. exact (carrier_params s c rest f a name' f' a'). Qed.
Print Assumptions C87_carrier_params.

Theorem C87_modulated_params s c rest f a name' f' a' fname aname : defaults_ok s ->
  let name := if Ascii.eqb c "#" then rest else String c rest in
  contains "am-" name = true -> starts "am-" name = false -> split2 name = Ok (fname, aname) ->
  process_one s (RFull (String c rest) f a) = Ok (name', f', a') ->
  name' = String c rest /\
  (forall k, dget k f' = match dget k f with Some u => Some u | None => carrier_default s name fname k end) /\
  (forall k, dget k a' = match dget k a with Some u => Some u | None => modulator_default s name aname k end).
Proof. exact (modulated_params s c rest f a name' f' a' fname aname). Qed.
Print Assumptions C87_modulated_params.

Theorem C87_bare_modulator s aname f a : starts "am-" aname = true -> rstrip (is_c ":") aname = aname -> contains "am-" aname = true ->
  forall name' f' a', process_one s (RFull aname f a) = Ok (name', f', a') -> name' = "cosine:" ++ aname.
Proof. exact (bare_modulator s aname f a). Qed.
Print Assumptions C87_bare_modulator.

(** carrier times modulator, plus its reflection, plus noise *)
Theorem C87_signal g gen s N name f a st xc x t f' st' :
  make_one g gen s N (name, f, a) st = Ok (xc, x, t, f', st') ->
  exists fname aname fn afn x0 am kw tm,
    split_name name = Ok (fname, aname) /\
    find_method gen (lstrip (is_c "#") (under fname)) = Ok fn /\ find_method gen (under aname) = Ok afn /\
    fn N (dpop "snr" f) = Ok (x0, t) /\ join a (time_keys f a) = Ok kw /\
    afn (Some (Z.of_nat (length x0))) kw = Ok (am, tm) /\ length am = length x0 /\ length xc = length x0 /\
    (forall i, (i < length x0)%nat ->
       nth i xc 0 = nth i x0 0 * nth i am 0 +
         if starts "#" name then nth (length x0 - 1 - i) x0 0 * nth (length x0 - 1 - i) am 0 else 0) /\
    ((x = xc /\ f' = dpop "snr" f /\ st' = st) \/
     (exists r st0 e, r <> 0 /\ (dget "snr" f = Some (PFloat r) \/ dget "snr" f = None /\ m_snr s = Some r) /\
        st0 = match m_seed s with Some k => reseed g k | None => st end /\
        randn g st0 (length xc) = (e, st') /\ x = vplus xc (noise_of xc e r) /\
        f' = dset "snr" (measured xc (noise_of xc e r)) (dpop "snr" f))).
Proof. exact (make_one_spec g gen s N name f a st xc x t f' st'). Qed.
Print Assumptions C87_signal.

Theorem C87_reflected g gen s N name f a st xc x t f' st' : starts "#" name = true ->
  make_one g gen s N (name, f, a) st = Ok (xc, x, t, f', st') ->
  forall i, (i < length xc)%nat -> nth i xc 0 = nth (length xc - 1 - i) xc 0.
Proof. exact (reflected g gen s N name f a st xc x t f' st'). Qed.
Print Assumptions C87_reflected.

(** missing: requests of the same name *)
Theorem C87_one_each_partial g gen s rs N st data ds st' ps : process_input s rs = Ok ps -> NoDup (map pname ps) ->
  make_signals g gen s rs N st = Ok (data, ds, st') ->
  length data = length rs /\ map fst data = map pname ps /\
  forall k i r, m_seed s = Some k -> nth_error rs i = Some r -> exists name e d, nth_error data i = Some (name, e) /\
    forall st0, exists st1, make_signals g gen s [r] N st0 = Ok ([(name, e)], [d], st1).
Proof. exact (one_each g gen s rs N st data ds st' ps). Qed.
Print Assumptions C87_one_each_partial.

Theorem C87_duplicates_refuted : exists data ds st', make_signals rng1 gen1 (self1 None) both None 0%nat = Ok (data, ds, st') /\
  length both = 2%nat /\ length data = 1%nat /\ exists x, plain data = One x.
Proof. exact duplicates. Qed.
Print Assumptions C87_duplicates_refuted.

(** time keywords for the modulator always raise *)
Theorem C87_modulator_times_refuted g gen s N name f a st out k : time_key k = true -> has k a = true ->
  make_one g gen s N (name, f, a) st <> Ok out.
Proof. exact (modulator_times g gen s N name f a st out k). Qed.
Print Assumptions C87_modulator_times_refuted.

Definition self2 : mself := init None (Some 7%Z) [("cosine", D1 [("f", PFloat 3); ("phi0", PFloat 0)])] ["cosine"; "sine"].
Example C87_case : exists f, process_one self2 (RFull "#cosine" [("f", PFloat 2)] []) = Ok ("#cosine", f, []) /\
  dget "f" f = Some (PFloat 2) /\ dget "phi0" f = Some (PFloat 0).
Proof. eexists. split; [reflexivity|]. split; reflexivity. Qed.
Example C87_case_run : exists data ds st', make_signals rng1 gen1 self2 [RFull "#cosine" [("f", PFloat 2)] []; RName "cosine"] None 0%nat = Ok (data, ds, st') /\
  map fst data = ["#cosine"; "cosine"].
Proof. do 3 eexists. split; reflexivity. Qed.

(** * C88: noise *)

(** missing: a seed of 0 *)
Theorem C88_seeded_partial g gen s N p st k xc x t f' st1 : m_seed s = Some k ->
  make_one g gen s N p st = Ok (xc, x, t, f', st1) -> forall st2, exists st3,
  make_one g gen s N p st2 = Ok (xc, x, t, f', st3).
Proof. exact (seeded_same g gen s N p st k xc x t f' st1). Qed.
Print Assumptions C88_seeded_partial.

Theorem C88_snr x e r : 0 < var x -> 0 < var e ->
  measured x (noise_of x e r) = PFloat (r - 10 * log10 (var e)).
Proof. exact (measured_snr x e r). Qed.
Print Assumptions C88_snr.

(** the same request, made twice with a seed *)
Theorem C88_drift_refuted : exists d1 f' a st1 d2 ds st2 x1 t1 x2 t2 f1 f2,
  let s := self1 (Some 7%Z) in
  make_signals rng1 gen1 s [RFull "cosine" (noisy 10) []] None 0%nat = Ok (d1, [(f', a)], st1) /\
  make_signals rng1 gen1 s [RFull "cosine" f' a] None st1 = Ok (d2, ds, st2) /\
  d1 = [("cosine", (x1, t1, f1, []))] /\ d2 = [("cosine", (x2, t2, f2, []))] /\ nth 0 x1 0 < nth 0 x2 0.
Proof. exact drift_case. Qed.
Print Assumptions C88_drift_refuted.

(** in general: the noise is scaled by the deviates' deviation; missing: variance 1 gives the same *)
Theorem C88_drift_partial g gen s N name f a st xc x t f' st1 r k e st2 : NoDup (keys f) ->
  m_seed s = Some k -> dget "snr" f = Some (PFloat r) -> r <> 0 ->
  make_one g gen s N (name, f, a) st = Ok (xc, x, t, f', st1) ->
  randn g (reseed g k) (length xc) = (e, st2) -> 0 < var xc -> 0 < var e -> r <> 10 * log10 (var e) ->
  x = vplus xc (noise_of xc e r) /\
  exists f'' st3, make_one g gen s N (name, f', a) st1 = Ok (xc, vplus xc (map (Rmult (sqrt (var e))) (noise_of xc e r)), t, f'', st3).
Proof. exact (drift g gen s N name f a st xc x t f' st1 r k e st2). Qed.
Print Assumptions C88_drift_partial.

(** 0 dB adds nothing *)
Theorem C88_snr_zero_refuted g gen s N name f a st xc x t f' st1 : dget "snr" f = Some (PFloat 0) ->
  make_one g gen s N (name, f, a) st = Ok (xc, x, t, f', st1) -> x = xc.
Proof. exact (zero_snr g gen s N name f a st xc x t f' st1). Qed.
Print Assumptions C88_snr_zero_refuted.

Theorem C88_zero_refuted d sup : init (Some 0) (Some 0%Z) d sup = init None None d sup.
Proof. exact (zero_init d sup). Qed.
Print Assumptions C88_zero_refuted.

Theorem C88_seed_zero_refuted : exists st st' d1 d2 ds1 ds2 st1 st2,
  let s := self1 (Some 0%Z) in let rs := [RFull "cosine" (noisy 10) []] in
  make_signals rng1 gen1 s rs None st = Ok (d1, ds1, st1) /\ make_signals rng1 gen1 s rs None st' = Ok (d2, ds2, st2) /\
  plain d1 <> plain d2.
Proof. exact seed_zero. Qed.
Print Assumptions C88_seed_zero_refuted.

Example C88_case : exists x t f' st, make_one rng1 gen1 (self1 (Some 7%Z)) None ("cosine", noisy 10, []) 3%nat = Ok ([1; Ropp 1], x, t, f', st) /\
  make_one rng1 gen1 (self1 (Some 7%Z)) None ("cosine", noisy 10, []) 0%nat = Ok ([1; Ropp 1], x, t, f', st).
Proof.
  pose proof (run1 10 3%nat (Some 7%Z) ltac:(lra)) as E1. pose proof (run1 10 0%nat (Some 7%Z) ltac:(lra)) as E2. cbv zeta in E1, E2.
  do 4 eexists. split; [exact E1|exact E2].
Qed.
