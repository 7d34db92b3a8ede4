(** Model of the higher-order generalized Morse wavelets, ssqueezepy/_gmw.py.  Real arithmetic
    as in Wavelets.v.  [Gamma] stands for scipy's [gamma] and [gammaln x] for [ln (Gamma x)]
    (every argument here is positive).  The [_par] and [_gpu] variants apply the same formulas. *)
From Coq Require Import Reals Lra.
From Verif Require Import Py Cplx Freqs Pointwise Comb Wavelets.
Local Open Scope R_scope.

Inductive gnorm := Bandpass | Energy | OtherNorm.
(** what may be passed as [order] *)
Inductive gorder := OInt (k : Z) | OFloat (k : R) | OOther.

(** a loop over [l] collecting results; the first exception ends it *)
Fixpoint rmapM {A B} (f : A -> res B) (l : list A) : res (list B) :=
  match l with
  | [] => Ok []
  | a :: t => do b <- f a; do r <- rmapM f t; Ok (b :: r)
  end.

Definition gammaln (Gamma : R -> R) (x : R) : R := ln (Gamma x).
(** [(-1)**m] *)
Definition sgn1 (m : nat) : R := if Nat.even m then 1 else -1.

(** _gmw.py:748-773 [_check_args] with every argument given but [scale], and
    [allow_zerobeta=True] *)
Definition check_beta0_args (gamma beta : R) (norm : gnorm) : res unit :=
  if Rle_dec gamma 0 then Err ValueError
  else if Rlt_dec beta 0 then Err ValueError
  else match norm with OtherNorm => Err ValueError | _ => Ok tt end.
Definition check_order (o : gorder) : res unit :=
  match o with
  | OInt k => if (k <? 0)%Z then Err ValueError else Ok tt
  | OFloat k => if negb (Reqb k (IZR (Int_part k))) then Err TypeError
                else if Rlt_dec k 0 then Err ValueError else Ok tt
  | OOther => Err TypeError
  end.

(** _gmw.py:383-388 (and 605-606): one Laguerre constant, without the power of x *)
Definition lag_const (Gamma : R -> R) (k : nat) (c : R) (m : nat) : R :=
  let fact := exp (gammaln Gamma (INR k + c + 1) - gammaln Gamma (c + INR m + 1)
                   - gammaln Gamma (INR (k - m) + 1)) in
  sgn1 m * fact / Gamma (INR m + 1).

(** _gmw.py:376-381 [coeff] *)
Definition k_coeff (Gamma : R -> R) (gamma beta : R) (k : nat) (norm : gnorm) : R :=
  let r := (2 * beta + 1) / gamma in
  match norm with
  | Bandpass => sqrt (exp (gammaln Gamma r + gammaln Gamma (INR k + 1) - gammaln Gamma (INR k + r)))
  | _ => sqrt (2 * PI * gamma * Rpower 2 r *
               exp (gammaln Gamma (INR k + 1) - gammaln Gamma (INR k + r)))
  end.

(** _gmw.py:366-394 [_gmw_k_constants] *)
Definition gmw_k_constants (Gamma : R -> R) (gamma beta : R) (k : nat) (norm : gnorm) : list R :=
  let r := (2 * beta + 1) / gamma in
  let c := r - 1 in
  let coeff := k_coeff Gamma gamma beta k norm in
  let L_consts := tab (k + 1) (lag_const Gamma k c) in
  let k_consts := map (fun l => l * coeff) L_consts in
  match norm with Bandpass => map (fun l => l * 2) k_consts | _ => k_consts end.

(** _gmw.py:290-292, the loop accumulating [C] for one entry *)
Definition k_poly (k_consts : list R) (x : R) : R :=
  fold_left (fun c m => c + nth m k_consts 0 * x ^ m) (seq 0 (length k_consts)) 0.

(** _gmw.py:285-294 [_gmw_l1_k] on one entry; [np.log(0)] is [-inf], [exp(-inf)] is 0 *)
Definition gmw_l1_k_entry (gamma beta wc : R) (k_consts : list R) (w : R) : R :=
  let nonneg := Rgeb w 0 in
  let w := w * b2R nonneg in
  k_poly k_consts (2 * rpow w gamma) *
  (if Req_EM_T w 0 then 0
   else exp (- beta * ln wc + rpow wc gamma + beta * ln w - rpow w gamma)) * b2R nonneg.
(** _gmw.py:336-344 [_gmw_l2_k] on one entry *)
Definition gmw_l2_k_entry (gamma beta : R) (k_consts : list R) (w : R) : R :=
  let nonneg := Rgeb w 0 in
  let w := w * b2R nonneg in
  k_poly k_consts (2 * rpow w gamma) *
  (if Req_EM_T w 0 then 0 else exp (beta * ln w - rpow w gamma)) * b2R nonneg.

(** _gmw.py:267-283 [gmw_l1_k] and 318-334 [gmw_l2_k], integer [k] *)
Definition gmw_l1_k (Gamma : R -> R) (gamma beta : R) (k : nat) (centered : bool) : res (R -> R) :=
  do _ <- check_gmw_args gamma beta;
  let wc := morsefreq gamma beta in
  let k_consts := gmw_k_constants Gamma gamma beta k Bandpass in
  Ok (fun w => gmw_l1_k_entry gamma beta wc k_consts (if centered then w * wc else w)).
Definition gmw_l2_k (Gamma : R -> R) (gamma beta : R) (k : nat) (centered : bool) : res (R -> R) :=
  do _ <- check_gmw_args gamma beta;
  let wc := morsefreq gamma beta in
  let k_consts := gmw_k_constants Gamma gamma beta k Energy in
  Ok (fun w => gmw_l2_k_entry gamma beta k_consts (if centered then w * wc else w)).

(** _gmw.py:118-131 [gmw] with every argument given; [f32] says whether [dtype] is float32.
    A float order passes [_check_args] and [np.zeros(k + 1)] (line 384) then raises. *)
Definition gmw (Gamma : R -> R) (gamma beta : R) (norm : gnorm) (order : gorder)
    (centered f32 : bool) : res (R -> R) :=
  do _ <- check_beta0_args gamma beta norm;
  do _ <- check_order order;
  match norm, f32 with
  | Energy, true => Err ValueError
  | _, _ =>
    let order0 := match norm with
      | Bandpass => gmw_l1 gamma beta centered
      | _ => gmw_l2 Gamma gamma beta centered end in
    match order with
    | OInt 0%Z => order0
    | OInt k => match norm with
        | Bandpass => gmw_l1_k Gamma gamma beta (Z.to_nat k) centered
        | _ => gmw_l2_k Gamma gamma beta (Z.to_nat k) centered end
    | OFloat k => if Reqb k 0 then order0
        else do _ <- check_gmw_args gamma beta; Err TypeError
    | OOther => Err TypeError
    end
  end.

(** _gmw.py:134-184 [compute_gmw] with [time=True]: the frequency- and time-domain arrays.
    [X[isinf | isnan] = 0] has no effect on reals. *)
Definition center_ifft (N : nat) (X : list R) : list C :=
  let Xr := tab N (fun i => if ((N mod 2 =? 0) && (i =? N / 2))%nat then nth i X 0 / 2 else nth i X 0) in
  tab N (idft N (fun i => RtoC (nth i Xr 0 * sgn1 i))).
Definition compute_gmw (Gamma : R -> R) (N : nat) (scale gamma beta : R) (norm : gnorm)
    (order : gorder) (centered norm_scale f32 : bool) : res (list R * list C) :=
  do _ <- check_beta0_args gamma beta norm;
  if Rle_dec scale 0 then Err ValueError else
  do fn <- gmw Gamma gamma beta norm order centered f32;
  let w := xifn scale N in
  let X := tab N (fun i => if (i <? N / 2 + 1)%nat then fn (nth i w 0) else 0) in
  let X := match norm with
    | Energy => if norm_scale then
        let wc := morsefreq gamma beta in
        map (fun v => v * (if centered then sqrt (wc * scale) else sqrt scale)) X else X
    | _ => X end in
  Ok (X, center_ifft N X).

(** _gmw.py:592-608 [laguerre], one entry *)
Definition laguerre (Gamma : R -> R) (x : R) (k : nat) (c : R) : R :=
  fold_left (fun y m =>
    let fact := exp (gammaln Gamma (INR k + c + 1) - gammaln Gamma (c + INR m + 1)
                     - gammaln Gamma (INR (k - m) + 1)) in
    y + sgn1 m * fact * x ^ m / Gamma (INR m + 1)) (seq 0 (k + 1)) 0.

(** _gmw.py:555-589 [morseafun] *)
Definition morseafun (Gamma : R -> R) (gamma beta : R) (k : nat) (norm : gnorm) : res R :=
  match norm with
  | Energy =>
    let r := (2 * beta + 1) / gamma in
    Ok (sqrt (2 * PI * gamma * Rpower 2 r *
              exp (gammaln Gamma (INR k) - gammaln Gamma (INR k + r - 1))))
  | Bandpass =>
    if Req_EM_T beta 0 then Ok 2
    else let wc := morsefreq gamma beta in Ok (2 / exp (beta * ln wc - rpow wc gamma))
  | OtherNorm => Err ValueError
  end.

(** _gmw.py:491-510 [psizero], entry [i]; [log(0)] gives 0 after [exp] *)
Definition psizero (gamma beta fo : R) (norm : gnorm) (i : nat) (w : R) : R :=
  let v := if Req_EM_T beta 0 then
      match norm with Energy => exp (- rpow w gamma) | _ => 2 * exp (- rpow w gamma) end
    else if Req_EM_T w 0 then 0
    else match norm with
      | Energy => exp (beta * ln w - rpow w gamma)
      | _ => 2 * exp (- beta * ln fo + rpow fo gamma + beta * ln w - rpow w gamma) end in
  if Req_EM_T beta 0 then (if (i =? 0)%nat then v / 2 else v) else v.

(** _gmw.py:539-551, the coefficient of order [k] *)
Definition family_coeff (Gamma : R -> R) (fact gamma beta : R) (norm : gnorm) (k : nat) : res R :=
  let r := (2 * beta + 1) / gamma in
  match norm with
  | Energy => do A <- morseafun Gamma gamma beta (k + 1) Energy; Ok (sqrt (1 / fact) * A)
  | _ => Ok (if Req_EM_T beta 0 then 1
             else sqrt (exp (gammaln Gamma r + gammaln Gamma (INR k + 1) - gammaln Gamma (INR k + r))))
  end.
(** _gmw.py:484-552 [_morsewave1] with [_morsewave_first_family]: the pair for order [k].
    [f / fo] is a division of Python floats (elements of a numpy array would give [inf] and a
    warning for [fo = 0]); [f = 0] is not modelled. *)
Definition morsewave1 (Gamma : R -> R) (N : nat) (f gamma beta : R) (norm : gnorm) (k : nat)
    : res (list R * list C) :=
  let fo := morsefreq gamma beta in
  if Req_EM_T fo 0 then Err ZeroDivisionError else
  let fact := f / fo in
  let w i := 2 * PI * (INR i / INR N) / fact in
  let c := (2 * beta + 1) / gamma - 1 in
  do coeff <- family_coeff Gamma fact gamma beta norm k;
  let X := tab N (fun i => coeff * psizero gamma beta fo norm i (w i) *
    (if (i <? N / 2 + 1)%nat then laguerre Gamma (2 * rpow (w i) gamma) k c else 0)) in
  Ok (X, center_ifft N X).

(** numpy: an array of shape (n, k) assigned to one of shape (a, b, k) *)
Definition fits (n : nat) (b : nat) : bool := ((n =? 1) || (n =? b))%nat.
(** _gmw.py:398-481 [morsewave] before [squeeze]: for each frequency, for each order, the pair
    of arrays.  A negative frequency assigns arrays of shape (N, K) to (N, 1, K) (line 476) and
    (N-1, K) to (N-1, 1, K) (line 477). *)
Definition morsewave_freq (Gamma : R -> R) (N : nat) (gamma beta : R) (K : nat) (norm : gnorm) (f : R)
    : res (list (list R * list C)) :=
  do l <- rmapM (morsewave1 Gamma N (Rabs f) gamma beta norm) (seq 0 K);
  if Rlt_dec f 0 then
    if fits N 1 && fits (N - 1) 1 then
      Ok (map (fun '(X, x) => (firstn 1 X ++ rev (skipn 1 X), map Cconj x)) l)
    else Err ValueError
  else Ok l.
Definition morsewave (Gamma : R -> R) (N : nat) (freqs : list R) (gamma beta : R) (K : nat)
    (norm : gnorm) : res (list (list (list R * list C))) :=
  do _ <- check_beta0_args gamma beta norm;
  rmapM (morsewave_freq Gamma N gamma beta K norm) freqs.

(** ** Moments *)
(** _gmw.py:687-693 [morsef], [morsemom1]; [p] an integer *)
Definition morsef (Gamma : R -> R) (gamma beta : R) : R :=
  1 / (2 * PI * gamma) * Gamma ((beta + 1) / gamma).
Definition morsemom1 (Gamma : R -> R) (p : nat) (gamma beta : R) : res R :=
  do a <- morseafun Gamma gamma beta 1 Bandpass;
  Ok (a * morsef Gamma gamma (beta + INR p)).
Definition energymom (Gamma : R -> R) (p : nat) (gamma beta : R) : res R :=
  do m <- morsemom1 Gamma p gamma (2 * beta);
  Ok (2 / Rpower 2 ((1 + INR p) / gamma) * m).
(** _gmw.py:660-718 [_morsemom] with [n_out=4] *)
Definition morsemom (Gamma : R -> R) (p : nat) (gamma beta : R) : res (R * R * R * R) :=
  do Mp <- morsemom1 Gamma p gamma beta;
  do Np <- energymom Gamma p gamma beta;
  do moments <- rmapM (fun q => morsemom1 Gamma q gamma beta) (seq 0 (p + 1));
  do cumulants <- moments_to_cumulants moments;
  do emoments <- rmapM (fun q => energymom Gamma q gamma beta) (seq 0 (p + 1));
  do ecumulants <- moments_to_cumulants emoments;
  Ok (Mp, Np, nth p cumulants 0, nth p ecumulants 0).

(** _gmw.py:611-657 [morsefreq] with [n_out=4] *)
Definition morsefreq_all (Gamma : R -> R) (gamma beta : R) : res (R * R * R * R) :=
  let wm := morsefreq gamma beta in
  let we := 1 / Rpower 2 (1 / gamma) * (Gamma ((2 * beta + 2) / gamma) / Gamma ((2 * beta + 1) / gamma)) in
  let wi := Gamma ((beta + 2) / gamma) / Gamma ((beta + 1) / gamma) in
  do m2 <- morsemom Gamma 2 gamma beta;
  do m3 <- morsemom Gamma 3 gamma beta;
  let k2 := snd (fst m2) in
  let k3 := snd (fst m3) in
  Ok (wm, we, wi, - (k3 / Rpower k2 (3 / 2))).
