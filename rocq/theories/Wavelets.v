(** wavelets.py and _gmw.py: the built-in wavelet functions, histories of [Wavelet.Psih]
    calls, and the cached time-frequency properties.  Exact arithmetic: overflow and
    underflow of [exp] and casts to float32 are not modelled.  The [_par] and [_gpu]
    variants apply the same formula entry by entry, so one definition stands for all. *)
From Coq Require Import Reals Lra.
From Verif Require Import Py Cplx Freqs Scales Cwt.
Local Open Scope R_scope.

Definition Rgeb (a b : R) : bool := if Rle_dec b a then true else false.
Definition b2R (b : bool) : R := if b then 1 else 0.
(** [w**g] for [w >= 0], [g > 0] *)
Definition rpow (w g : R) : R := if Req_EM_T w 0 then 0 else Rpower w g.

(** ** Generalized Morse wavelets *)
(** _gmw.py:748-760 [_check_args] with [allow_zerobeta=False] *)
Definition check_gmw_args (gamma beta : R) : res unit :=
  if Rle_dec gamma 0 then Err ValueError
  else if Rle_dec beta 0 then Err ValueError else Ok tt.

(** _gmw.py:638 [morsefreq], first output *)
Definition morsefreq (gamma beta : R) : R := rpow (beta / gamma) (1 / gamma).

(** _gmw.py:203-210 [_gmw_l1] on one entry.  [np.log(0)] is [-inf] and [exp(-inf)] is 0;
    [-0.0 >= 0] holds but the first factor is 0 there. *)
Definition gmw_l1_entry (gamma beta wc w : R) : R :=
  let nonneg := Rgeb w 0 in
  let w := w * b2R nonneg in
  (if Req_EM_T w 0 then 0
   else 2 * exp (- beta * ln wc + rpow wc gamma + beta * ln w - rpow w gamma)) * b2R nonneg.

(** _gmw.py:246-251 [_gmw_l2] on one entry; [rgamma] stands for scipy's [gamma(r)] *)
Definition gmw_l2_entry (gamma beta r rgamma w : R) : R :=
  let nonneg := Rgeb w 0 in
  let w := w * b2R nonneg in
  sqrt (2 * PI * gamma * Rpower 2 r / rgamma) * rpow w beta * exp (- rpow w gamma) * b2R nonneg.

(** _gmw.py:187-201 [gmw_l1]: the function returned, on one entry *)
Definition gmw_l1 (gamma beta : R) (centered : bool) : res (R -> R) :=
  do _ <- check_gmw_args gamma beta;
  let wc := morsefreq gamma beta in
  Ok (fun w => gmw_l1_entry gamma beta wc (if centered then w * wc else w)).

(** _gmw.py:228-244 [gmw_l2]; [Gamma] stands for scipy's gamma function *)
Definition gmw_l2 (Gamma : R -> R) (gamma beta : R) (centered : bool) : res (R -> R) :=
  do _ <- check_gmw_args gamma beta;
  let wc := morsefreq gamma beta in
  let r := (2 * beta + 1) / gamma in
  Ok (fun w => gmw_l2_entry gamma beta r (Gamma r) (if centered then w * wc else w)).

(** What happens to an array given to a GMW function: [w *= w_nonneg] runs on the array
    returned by [S.atleast_1d(w, dtype)] (backend.py:26-29, 59-60), which is the caller's
    own array unless a conversion or [w * wc] made a new one.  Result: the values returned
    and the caller's array afterwards. *)
Definition gmw_array (f : R -> R) (centered same_dtype : bool) (w : list R) : list R * list R :=
  (map f w,
   if negb centered && same_dtype then map (fun x => x * b2R (Rgeb x 0)) w else w).

(** ** Other wavelets, one entry *)
(** wavelets.py:498-523 [morlet] *)
Definition morlet (mu w : R) : R :=
  let cs := Rpower (1 + exp (- mu ^ 2) - 2 * exp (- (3 / 4) * mu ^ 2)) (- / 2) in
  let ks := exp (- / 2 * mu ^ 2) in
  sqrt 2 * cs * Rpower PI (/ 4) * (exp (- / 2 * (w - mu) ^ 2) - ks * exp (- / 2 * w ^ 2)).

(** wavelets.py:533-555 [bump] *)
Definition bump (mu s om w : R) : C :=
  let w_ := (w - mu) / s in
  let inside := b2R (Rltb' (Rabs w_) (999 / 1000)) in
  Cmul (cis (2 * PI * om * w))
       (RtoC (/ s * inside * exp (- 1 / (1 - (w_ * inside) ^ 2)) / (443993816053287 / 10 ^ 15))).

(** wavelets.py:566-582 [cmhat], [s > 0] *)
Definition cmhat (mu s w : R) : R :=
  let w_ := w - mu in
  2 * sqrt (2 / 3) * Rpower PI (- / 4) *
  (Rpower s (5 / 2) * w_ ^ 2 * exp (- s ^ 2 * w_ ^ 2 / 2) * b2R (Rgeb w_ 0)).

(** [np.sign] *)
Definition sign (x : R) : R := if Rlt_dec x 0 then -1 else if Rlt_dec 0 x then 1 else 0.
(** wavelets.py:591-604 [hhhat] *)
Definition hhhat (mu w : R) : R :=
  let w_ := w - mu in
  2 / sqrt 5 * Rpower PI (- / 4) * (w_ * (1 + w_) * exp (- / 2 * w_ ^ 2)) * (1 + sign w_).

(** ** Histories of [Psih] calls on one [Wavelet] *)
(** [PWrite]: the caller assigns to an entry of the array [Psih] last returned, which is the
    cached array itself (wavelets.py:149, 160 return [self._Psih] without a copy) *)
Inductive pop :=
| PSetN (n : nat)
| PCall (scales : list R) (N : option nat) (nohalf : bool)
| PWrite (i j : nat) (z : C).
Definition mset (p : mat C) (i j : nat) (z : C) : mat C :=
  Mat (nrows p) (ncols p) (fun a b => if ((a =? i) && (b =? j))%nat then z else el p a b).
Definition pstep (f : wfun) (s : cstate) (o : pop) : cstate :=
  match o with
  | PSetN n => snd (set_N n s)
  | PCall sc N h => snd (Psih f sc N h s)
  | PWrite i j z =>
      CS (s_pat s) (s_lim s) (s_N s)
         match s_cache s with Some (n, sc, P) => Some (n, sc, mset P i j z) | None => None end
  end.
Definition prun (f : wfun) (h : list pop) (s : cstate) : cstate := fold_left (pstep f) h s.

(** ** Time-frequency properties, wavelets.py:212-341 *)
Inductive tfprop := Wc | WcCt | ScalecCt | StdT | StdW | StdTD | StdWD.
Definition tfprop_eqb (a b : tfprop) : bool :=
  match a, b with
  | Wc, Wc | WcCt, WcCt | ScalecCt, ScalecCt | StdT, StdT | StdW, StdW
  | StdTD, StdTD | StdWD, StdWD => true
  | _, _ => false
  end.
(** What the wavelet's function makes of a scale and [N]:
    [tf_peak] is [find_maximum(wavelet.fn)[0]], the value of center_frequency(kind='peak-ct')
    (wavelets.py:715-722 computes the rest from [N] only for plotting);
    [tf_energy] center_frequency(kind='energy') (695-708);
    [tf_time nondim], [tf_freq nondim] time_resolution and freq_resolution (753-926).
    The last three may raise. *)
Record tf_fns := TF { tf_peak : R; tf_energy : R -> nat -> res R;
                      tf_time : bool -> R -> nat -> res R; tf_freq : bool -> R -> nat -> res R }.
(** attributes [_N] and [_<name>] *)
Record tfstate := TS { t_N : nat; t_val : tfprop -> option R }.
Definition tput (p : tfprop) (v : option R) (s : tfstate) : tfstate :=
  TS (t_N s) (fun q => if tfprop_eqb q p then v else t_val s q).
(** one getter: return the attribute unless it is [None], else compute and store it *)
Definition cached (p : tfprop) (compute : tfstate -> res R * tfstate) (s : tfstate) : res R * tfstate :=
  match t_val s p with
  | Some v => (Ok v, s)
  | None => match compute s with
            | (Ok v, s') => (Ok v, tput p (Some v) s')
            | (Err e, s') => (Err e, s')
            end
  end.
(** 227-236 [wc_ct], 238-245 [scalec_ct] *)
Definition get_wc_ct (w : tf_fns) := cached WcCt (fun s => (Ok (tf_peak w), s)).
Definition get_scalec (w : tf_fns) := cached ScalecCt (fun s =>
  match get_wc_ct w s with (Ok v, s') => (Ok (4 / PI * v), s') | r => r end).
(** 212-225 [wc], 247-290 [std_*]: [g(self, scale=self.scalec_ct, N=self.N)] *)
Definition get_from_scalec (w : tf_fns) (p : tfprop) (g : R -> nat -> res R) :=
  cached p (fun s =>
    match get_scalec w s with (Ok sc, s') => (g sc (t_N s'), s') | r => r end).
Definition tget (w : tf_fns) (p : tfprop) : tfstate -> res R * tfstate :=
  match p with
  | WcCt => get_wc_ct w
  | ScalecCt => get_scalec w
  | Wc => get_from_scalec w Wc (tf_energy w)
  | StdT => get_from_scalec w StdT (tf_time w true)
  | StdW => get_from_scalec w StdW (tf_freq w true)
  | StdTD => get_from_scalec w StdTD (tf_time w false)
  | StdWD => get_from_scalec w StdWD (tf_freq w false)
  end.
(** 335-341 [reset_properties], visiting the names in the order [order]; an exception in a
    getter ends the loop *)
Fixpoint treset (w : tf_fns) (order : list tfprop) (s : tfstate) : res unit * tfstate :=
  match order with
  | [] => (Ok tt, s)
  | p :: r => match tget w p (tput p None s) with
              | (Ok _, s') => treset w r s'
              | (Err e, s') => (Err e, s')
              end
  end.
(** histories: reading a property, assigning [N], resetting *)
Inductive tfop := TGet (p : tfprop) | TSetN (n : nat) | TReset (order : list tfprop).
Definition tstep (w : tf_fns) (s : tfstate) (o : tfop) : tfstate :=
  match o with
  | TGet p => snd (tget w p s)
  | TSetN n => TS n (t_val s)
  | TReset ord => snd (treset w ord s)
  end.
Definition trun (w : tf_fns) (h : list tfop) (s : tfstate) : tfstate := fold_left (tstep w) h s.
Definition tinit (n : nat) : tfstate := TS n (fun _ => None).
