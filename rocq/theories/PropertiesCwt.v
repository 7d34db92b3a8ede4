(** C28, C35-C38, C54, C59: the wavelet transform, its inverse, higher orders, differentiation. *)
From Verif Require Import Py Round Cplx Padding Freqs Squeeze Scales Cwt CwtProofs CwtThms CwtTone CwtThms2 SsqWitness
  CwtWitness CwtWitness2.
Local Open Scope R_scope.

(** ** C28 *)
(** A real tone (a complex [x] is cast to its real part), any amplitude and phase, any norm,
    vectorized or loop; the wavelet vanishes at the tone's mirror frequency (vacuous at
    Nyquist).  Missing: wavelets that do not (refuted below), and cached wavelet arrays. *)
Theorem C28_pure_tone_partial py inst f a s A phi k n fs W sc dW s' gamma i j :
  (0 < k)%nat -> (2 * k <= n)%nat -> a_pad a = None -> uncached inst a s ->
  process_fs_and_t (a_fs a) (a_t a) n = Ok fs ->
  cwt py inst f a (tone A phi k n) s = (Ok (W, sc, Some dW), s') ->
  ((2 * k < n)%nat -> wf f (nth i sc 0 * - (2 * PI * INR k / INR n)) = C0) ->
  0 < gamma -> gamma <= Cabs (el W i j) ->
  el (phase_cwt gamma W dW) i j = Fin (INR k * Rabs fs / INR n).
Proof. exact (tone_phase py inst f a s A phi k n fs W sc dW s' gamma i j). Qed.
Print Assumptions C28_pure_tone_partial.
(** the complex tone reaches the transform as its real part *)
Theorem C28_complex_cast py inst f a k n :
  cwt_complex py inst f a (tab n (fun m => cis (2 * PI * INR k * INR m / INR n))) =
  cwt py inst f a (tone 1 0 k n).
Proof. exact (complex_tone_cast py inst f a k n). Qed.
Print Assumptions C28_complex_cast.
Theorem C28_nonanalytic_refuted : exists f W dW s',
  cwt false false f (arg0 [1; 2; 4] true true) (tone 1 0 1 3) st0 = (Ok (W, [1; 2; 4], Some dW), s') /\
  1 <= Cabs (el W 0 0) /\ el (phase_cwt (1 / 10) W dW) 0 0 = Fin 0.
Proof. rewrite <- cos_third. exists flat_wave. exact flat_wave_tone. Qed.
Print Assumptions C28_nonanalytic_refuted.
Example C28_case : exists W dW s',
  cwt false false pos_wave (arg0 [1; 2; 4] true true) (tone 1 0 1 4) st0 = (Ok (W, [1; 2; 4], Some dW), s') /\
  1 / 4 <= Cabs (el W 1 3) /\ el (phase_cwt (1 / 4) W dW) 1 3 = Fin (1 * Rabs 1 / INR 4).
Proof. exact pos_wave_phase. Qed.

(** ** C35 *)
Theorem C35_mean_once_partial f Cpsi Wx scales f64 nv one_int l1 x_len m pt rpadded k :
  process_scales_arr f64 scales = Ok k -> (forall v, k <> KPiece v) ->
  icwt f Cpsi Wx scales f64 nv one_int l1 x_len m pt rpadded =
  match icwt f Cpsi Wx scales f64 nv one_int l1 x_len 0 pt rpadded with
  | Ok x => Ok (map (fun y => y + m) x)
  | Err e => Err e
  end.
Proof.
  exact (fun H Hk => icwt_mean f Cpsi Wx scales f64 nv one_int l1 x_len m pt rpadded k H
           (match k return (forall v, k <> KPiece v) -> is_piece k = false with
            | KPiece v => fun N => match N v eq_refl with end | _ => fun _ => eq_refl end Hk)).
Qed.
Print Assumptions C35_mean_once_partial.
(** piecewise scales: at least twice, for every transform and mean *)
Theorem C35_piecewise_adds_more f Cpsi Wx scales f64 nv one_int l1 x_len pt rpadded v :
  process_scales_arr f64 scales = Ok (KPiece v) -> exists c, (2 <= c)%nat /\ forall m,
  icwt f Cpsi Wx scales f64 nv one_int l1 x_len m pt rpadded =
  match icwt f Cpsi Wx scales f64 nv one_int l1 x_len 0 pt rpadded with
  | Ok x => Ok (map (fun y => y + INR c * m) x)
  | Err e => Err e
  end.
Proof. exact (icwt_mean_piece f Cpsi Wx scales f64 nv one_int l1 x_len pt rpadded v). Qed.
Print Assumptions C35_piecewise_adds_more.
Theorem C35_piecewise_refuted : exists Wx scales x, x <> [] /\
  icwt flat_wave 1 Wx scales true None true true None 0 PReflect false = Ok x /\
  icwt flat_wave 1 Wx scales true None true true None 1 PReflect false = Ok (map (fun y => y + 2) x).
Proof. exact (ex_intro _ _ (ex_intro _ _ icwt_piece6)). Qed.
Print Assumptions C35_piecewise_refuted.
(** the double-integral inverse of an already padded transform raises *)
Theorem C35_rpadded_two_int_refuted f Cpsi Wx scales f64 nv l1 x_len m pt n : wf_norm f = NotGmw ->
  process_scales_arr f64 scales = Ok (KLog n) -> nv = None \/ nv = Some n -> length scales = nrows Wx ->
  icwt f Cpsi Wx scales f64 nv false l1 x_len m pt true = Err UnboundLocalError.
Proof. exact (icwt_2int_rpadded f Cpsi Wx scales f64 nv l1 x_len m pt n). Qed.
Print Assumptions C35_rpadded_two_int_refuted.
Example C35_case m : icwt flat_wave 1 (Mat 3 1 (fun _ _ => C1)) [1; 2; 4] true None true true None m PReflect false =
  Ok [6 * ln 2 + m].
Proof. exact (icwt_124 m). Qed.

(** ** C36 *)
Theorem C36_linear py inst f a s al be x y Wx sc dx s' : length x = length y ->
  cwt py inst f a x s = (Ok (Wx, sc, dx), s') ->
  exists Wy dy Wz dz,
    cwt py inst f a y s = (Ok (Wy, sc, dy), s') /\
    cwt py inst f a (map (fun p => al * fst p + be * snd p) (combine x y)) s = (Ok (Wz, sc, dz), s') /\
    lincomb al be Wx Wy Wz /\ lincomb_opt al be dx dy dz.
Proof. exact (cwt_linear py inst f a s al be x y Wx sc dx s'). Qed.
Print Assumptions C36_linear.
(** two calls that share a scale share its row, whatever else is in the lists *)
Theorem C36_row_own_scale_partial py inst f a x s sc1 sc2 W1 W2 r1 r2 d1 d2 s1 s2 i1 i2 :
  real_valued f -> uncached inst a s ->
  cwt py inst f (set_scales a sc1) x s = (Ok (W1, r1, d1), s1) ->
  cwt py inst f (set_scales a sc2) x s = (Ok (W2, r2, d2), s2) ->
  nth i1 r1 0 = nth i2 r2 0 ->
  (forall j, el W1 i1 j = el W2 i2 j) /\
  match d1, d2 with
  | Some d1, Some d2 => forall j, el d1 i1 j = el d2 i2 j
  | None, None => True
  | _, _ => False
  end.
Proof. exact (cwt_row_own_scale py inst f a x s sc1 sc2 W1 W2 r1 r2 d1 d2 s1 s2 i1 i2). Qed.
Print Assumptions C36_row_own_scale_partial.
Theorem C36_vectorized_is_loop_partial py inst f a x s W sc dW s' : real_valued f -> uncached inst (set_vec a true) s ->
  cwt py inst f (set_vec a true) x s = (Ok (W, sc, dW), s') ->
  exists W' dW' s'', cwt py inst f (set_vec a false) x s = (Ok (W', sc, dW'), s'') /\ meq W W' /\ meq_opt dW dW'.
Proof. exact (cwt_vec_loop py inst f a x s W sc dW s'). Qed.
Print Assumptions C36_vectorized_is_loop_partial.
Theorem C36_batch_items py inst f a xs N s Ws sc dWs s' : xs <> [] -> same_length xs N ->
  cwt2 py inst f a xs s = (Ok (Ws, sc, dWs), s') ->
  length Ws = length xs /\
  forall b, (b < length xs)%nat ->
    cwt py inst f a (nth b xs []) s =
      (Ok (nth b Ws mat0, sc, opt_map (fun l => nth b l mat0) dWs), s').
Proof. exact (cwt_batch py inst f a xs N s Ws sc dWs s'). Qed.
Print Assumptions C36_batch_items.
Theorem C36_batch_succeeds py inst f a xs N s W sc dW s' : xs <> [] -> same_length xs N ->
  cwt py inst f a (nth 0 xs []) s = (Ok (W, sc, dW), s') ->
  exists Ws dWs, cwt2 py inst f a xs s = (Ok (Ws, sc, dWs), s').
Proof. exact (cwt2_ok py inst f a xs N s W sc dW s'). Qed.
Print Assumptions C36_batch_succeeds.
(** a complex-valued wavelet: the imaginary part is kept or dropped for the array as a whole *)
Theorem C36_complex_vectorized_refuted : exists f x W W' s' s'',
  cwt false false f (arg0 [1; 2; 4] false true) x st0 = (Ok (W, [1; 2; 4], None), s') /\
  cwt false false f (arg0 [1; 2; 4] false false) x st0 = (Ok (W', [1; 2; 4], None), s'') /\
  el W 0 0 <> el W' 0 0.
Proof. exact complex_vec_loop. Qed.
Print Assumptions C36_complex_vectorized_refuted.
Theorem C36_complex_rows_refuted : exists f x l W W' s' s'',
  cwt false false f (arg0 [1; 2; 4] false true) x st0 = (Ok (W, [1; 2; 4], None), s') /\
  cwt false false f (arg0 (1 :: l) false true) x st0 = (Ok (W', 1 :: l, None), s'') /\
  el W 0 0 <> el W' 0 0.
Proof. exact complex_rows. Qed.
Print Assumptions C36_complex_rows_refuted.
Example C36_case : real_valued pos_wave /\ uncached false (arg0 [1; 2; 4] true true) st0 /\ exists W dW s',
  cwt false false pos_wave (arg0 [1; 2; 4] true true) (tone 1 0 1 4) st0 = (Ok (W, [1; 2; 4], Some dW), s') /\
  el W 1 3 <> C0.
Proof. exact pos_wave_run. Qed.

(** ** C37 *)
Theorem C37_columns py inst f a x s W sc dW s' pt : a_pad a = Some pt ->
  cwt py inst f (set_rpadded a false) x s = (Ok (W, sc, dW), s') ->
  exists n_up n1 n2 V dV, p2up (Z.of_nat (length x)) = (n_up, n1, n2) /\
    cwt py inst f (set_rpadded a true) x s = (Ok (V, sc, dV), s') /\
    Z.of_nat (ncols V) = n_up /\ nrows V = length sc /\ columns_of n1 (length x) V W /\
    match dV, dW with
    | Some dV, Some dW => Z.of_nat (ncols dV) = n_up /\ columns_of n1 (length x) dV dW
    | None, None => True
    | _, _ => False
    end.
Proof. exact (cwt_columns py inst f a x s W sc dW s' pt). Qed.
Print Assumptions C37_columns.
Theorem C37_columns_without_padding py inst f a x s W sc dW s' : a_pad a = None ->
  cwt py inst f a x s = (Ok (W, sc, dW), s') ->
  ncols W = length x /\ nrows W = length sc /\ match dW with Some d => ncols d = length x | None => True end.
Proof. exact (cwt_columns_nopad py inst f a x s W sc dW s'). Qed.
Print Assumptions C37_columns_without_padding.
Example C37_case pt : exists W s',
  cwt false false pos_wave (CA (ScArr [1; 2; 4]) true None None true false (Some pt) false true (PatInt 0) None) [3; 1; 2; 5; 4] st0 =
  (Ok (W, [1; 2; 4], None), s') /\ ncols W = 5%nat.
Proof. exact (padded_run pt). Qed.

(** ** C38 *)
Theorem C38_restored py inst f a x s r s' : cwt py inst f a x s = (Ok r, s') ->
  s_N s' = s_N s /\ s_pat s' = s_pat s /\ s_lim s' = s_lim s.
Proof. exact (cwt_restores py inst f a x s r s'). Qed.
Print Assumptions C38_restored.
(** any sequence of calls, raising or not, with a patience the setter accepts (and pyfftw
    present when it is needed) *)
Theorem C38_sequences_partial py inst f calls s rs s' :
  (forall a x, In (a, x) calls -> usable_arg py (a_pat a) = true) ->
  cwt_calls py inst f calls s = (rs, s') ->
  s_N s' = s_N s /\ s_pat s' = s_pat s /\ s_lim s' = s_lim s.
Proof. exact (calls_keep py inst f calls s rs s'). Qed.
Print Assumptions C38_sequences_partial.
(** pyfftw absent and [patience=1]: the call raises, and so does the next one *)
Theorem C38_raising_call_refuted : exists a s1,
  cwt false true pos_wave a delta3 st0 = (Err ValueError, s1) /\
  (exists e, cwt false true pos_wave (arg0 [1; 2; 4] false true) delta3 s1 = (Err e, s1)) /\
  (exists r s2, cwt false true pos_wave (arg0 [1; 2; 4] false true) delta3 st0 = (Ok r, s2)) /\
  s_N s1 <> s_N st0 /\ s_pat s1 <> s_pat st0.
Proof. exact (ex_intro _ _ raising_call). Qed.
Print Assumptions C38_raising_call_refuted.
(** ... as does every later call, with any wavelet, arguments and signal *)
Theorem C38_every_later_call_raises_refuted inst f a x s : s_pat s <> 0%Z -> exists e, cwt false inst f a x s = (Err e, s).
Proof. exact (cwt_poisoned inst f a x s). Qed.
Print Assumptions C38_every_later_call_raises_refuted.
Example C38_case : exists W s', cwt false true pos_wave (arg0 [1; 2; 4] false true) delta3 st0 = (Ok W, s').
Proof. exact delta_run. Qed.

(** ** C54 *)
Theorem C54_tone A fs N n1 i k c : (k < ncols A)%nat ->
  (forall j, (j < ncols A)%nat -> el A i j = Cmul c (tw (ncols A) (Z.of_nat k * Z.of_nat j))) ->
  (0 <= n1)%Z -> (0 <= N)%Z -> (n1 + N <= Z.of_nat (ncols A))%Z ->
  exists D, trigdiff A fs None (Some true) (Some N) (Some n1) = Ok D /\
    nrows D = nrows A /\ Z.of_nat (ncols D) = N /\
    forall j, (Z.of_nat j < N)%Z ->
      el D i j = Cmul (0, 2 * PI * (if (k <=? ncols A / 2)%nat then INR k else INR k - INR (ncols A)) / INR (ncols A) * fs)
                      (el A i (Z.to_nat n1 + j)).
Proof. exact (trigdiff_tone A fs N n1 i k c). Qed.
Print Assumptions C54_tone.
Theorem C54_length_partial A fs pt : (1 <= ncols A)%nat -> exists D,
  trigdiff A fs pt None (Some (Z.of_nat (ncols A))) None = Ok D /\ ncols D = ncols A /\ nrows D = nrows A.
Proof. exact (trigdiff_given_N A fs pt). Qed.
Print Assumptions C54_length_partial.
(** default arguments: always too many samples *)
Theorem C54_default_length_refuted A fs : (2 <= ncols A)%nat -> exists D n_up n1 n2,
  p2up (Z.of_nat (ncols A)) = (n_up, n1, n2) /\ trigdiff A fs None None None None = Ok D /\
  (Z.of_nat (ncols D) = Z.of_nat (ncols A) + n2 /\ 1 <= n2)%Z.
Proof. exact (trigdiff_default_cols A fs). Qed.
Print Assumptions C54_default_length_refuted.
(** default arguments: the reflected tone is not a tone *)
Theorem C54_default_tone_refuted : exists A D, tone_row A 0 1 C1 /\ ncols A = 4%nat /\
  trigdiff A 1 None None None None = Ok D /\ el D 0 0 <> Cmul (0, bin_freq 1 4 * 1) (el A 0 0).
Proof. exact default_tone. Qed.
Print Assumptions C54_default_tone_refuted.
Example C54_case : ncols quarter = 4%nat /\ tone_row quarter 0 1 C1 /\ el quarter 0 1 = (0, 1).
Proof. exact (conj eq_refl (conj quarter_tone eq_refl)). Qed.

(** ** C59 *)
Theorem C59_mean py fam o average a x s V dV s' : ho_averages o average = true ->
  cwt_higher_order py fam o average a x s = (Ok (V, dV), s') ->
  s' = s /\ exists sc outs M, ho_scales a (length x) = Ok (ScArr sc) /\ V = HOOne M /\
    length outs = length (ho_list o) /\
    (forall q, (q < length (ho_list o))%nat -> exists dW,
       cwt_fresh py (fam (nth q (ho_list o) 0%nat)) (set_scales a (ScArr sc)) x s =
         (Ok (nth q outs mat0, sc, dW), s)) /\
    (ho_list o <> [] -> nrows M = nrows (nth 0 outs mat0) /\ ncols M = ncols (nth 0 outs mat0)) /\
    forall i j, el M i j = Cmul (RtoC (/ INR (length (ho_list o))))
                             (Csum (length (ho_list o)) (fun q => el (nth q outs mat0) i j)).
Proof. exact (ho_mean py fam o average a x s V dV s'). Qed.
Print Assumptions C59_mean.
(** batches, scales given as an array *)
Theorem C59_batch_partial py fam o average a l xs N s Vs dVs s' b : a_scales a = ScArr l -> xs <> [] -> same_length xs N ->
  ho_list o <> [] -> ho_averages o average = true ->
  cwt_higher_order2 py fam o average a xs s = (Ok (HOOne Vs, dVs), s') -> (b < length xs)%nat ->
  s' = s /\ length Vs = length xs /\
  exists dV, cwt_higher_order py fam o average a (nth b xs []) s = (Ok (HOOne (nth b Vs mat0), dV), s).
Proof. exact (ho_batch py fam o average a l xs N s Vs dVs s' b). Qed.
Print Assumptions C59_batch_partial.
(** scales by name: made for the number of signals instead of their length *)
Theorem C59_batch_refuted : exists a xs V Vs,
  cwt_higher_order false fam0 (HOTuple [0; 1]%nat) (Some true) a (nth 0 xs []) st0 = (Ok (HOOne V, None), st0) /\
  cwt_higher_order2 false fam0 (HOTuple [0; 1]%nat) (Some true) a xs st0 = (Ok (HOOne Vs, None), st0) /\
  same_length xs 3 /\ el (nth 0 Vs mat0) 2 0 <> el V 2 0.
Proof. exact ho_batch_differs. Qed.
Print Assumptions C59_batch_refuted.
Example C59_case : exists V, cwt_higher_order false fam0 (HOTuple [0; 1]%nat) (Some true) arg_auto delta3 st0 = (Ok (HOOne V, None), st0) /\
  ho_scales arg_auto (length delta3) = Ok (ScArr [1; 2; 4]) /\ el V 2 0 = RtoC (4 * (2 * PI / 9)).
Proof. exact ho_single. Qed.
