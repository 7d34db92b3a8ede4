(** _test_signals.py: the signals of [TestSignals].  Real arithmetic; warnings are not modelled.
    Times and frequencies are finite reals; [N] is an integer. *)
From Coq Require Import Reals Lra.
From Verif Require Import Py Round Cplx Squeeze Scales Search Chirp.
Local Open Scope R_scope.

(** toolkit.py:26-27 [_t]: [np.linspace] with [endpoint]; a negative [N] raises *)
Definition times (tmin tmax : R) (N : Z) (endpoint : bool) : res (list R) :=
  if (N <? 0)%Z then Err ValueError
  else Ok (if endpoint then linspace tmin tmax (Z.to_nat N)
           else tab (Z.to_nat N) (fun k => tmin + INR k * ((tmax - tmin) / IZR N))).

(** [**tkw] as the caller gives it, and [self.default_tkw], which has all three keys (lines
    141, 149-150) *)
Record tkws := TK { k_tmin : option R; k_tmax : option R; k_end : option bool }.
Record dtkws := DT { d_tmin : R; d_tmax : R; d_end : bool }.
(** [self.N], [self.default_tkw] *)
Record tself := TS { ts_N : Z; ts_tkw : dtkws }.
(** line 71 [DEFAULT_TKW] *)
Definition default_tkw : dtkws := DT 0 1 true.
Definition or_default {A} (o : option A) (d : A) : A := match o with Some x => x | None => d end.

(** [_lchirp_fn], [_echirp_fn], [_echirp_pc_fn], [_hchirp_fn] *)
Definition chirp_fn := R -> R -> R -> R -> res chirp.
Definition lchirp_fn : chirp_fn := fun a b c d => Ok (lchirp a b c d).
Definition echirp_fn : chirp_fn := echirp.
Definition echirp_pc_fn : chirp_fn := fun a b c d => Ok (echirp_pc a b c d).
Definition hchirp_fn : chirp_fn := fun a b c d => Ok (hchirp a b c d).

(** 647-664 [_est_N_nonalias] *)
Definition fine : nat := Z.to_nat 50000.
Definition est_N (fn : chirp_fn) (tmin tmax fmin fmax : R) : res Z :=
  do c <- fn tmin tmax fmin fmax;
  let fmax_fn := lmax (map (snd c) (linspace tmin tmax fine)) in
  Ok (Rceil (1 + fmax_fn * (tmax - tmin) / PI)).

(** 626-645 [_process_params]: [fmin], [fmax], [fn] come together; without [fn] there is no [fmin] *)
Definition process_params (s : tself) (N : option Z) (k : tkws) (f : option (chirp_fn * R * option R))
  : res (list R * R * R * R) :=
  let tmin := or_default (k_tmin k) (d_tmin (ts_tkw s)) in
  let tmax := or_default (k_tmax k) (d_tmax (ts_tkw s)) in
  let endpoint := or_default (k_end k) (d_end (ts_tkw s)) in
  do N <- match N with
          | Some N => Ok N
          | None => match f with
                    | Some (fn, fmin, Some fmax) => est_N fn tmin tmax fmin fmax
                    | _ => Ok (ts_N s)
                    end
          end;
  let fmax := match f with Some (_, _, Some fmax) => fmax | _ => IZR (N / 2) end in
  do t <- times tmin tmax N endpoint;
  Ok (t, tmin, tmax, fmax).

(** 162-178 [sine], [cosine] *)
Definition open_end (k : tkws) : tkws := TK (k_tmin k) (k_tmax k) (Some (or_default (k_end k) false)).
Definition tone (g : R -> R) (s : tself) (N : option Z) (f phi0 : R) (k : tkws) : res (list R * list R) :=
  do (t, _, _, _) <- process_params s N (open_end k) None;
  Ok (map (fun t => g (2 * PI * f * t + phi0)) t, t).

(** 183-188 [_generate] *)
Definition generate (fn : chirp_fn) (s : tself) (N : option Z) (fmin : R) (fmax : option R) (k : tkws)
  : res (list R * list R) :=
  do (t, tmin, tmax, fmax) <- process_params s N k (Some (fn, fmin, fmax));
  do c <- fn tmin tmax fmin fmax;
  Ok (map (fun t => cos (fst c t)) t, t).

(** [N or self.N] *)
Definition or_N (s : tself) (N : option Z) : Z :=
  match N with Some 0%Z | None => ts_N s | Some n => n end.

(** 284-354 [par_lchirp], [par_echirp], [par_hchirp]: how the second chirp is derived from the
    first; [fmin0] is [self.default_args[..].get('fmin', ..)] *)
Inductive par_kind := ParL | ParE | ParH.
Definition next_up (p : par_kind) (N : Z) (f : R) : R :=
  match p with ParL => f + IZR N / 10 | ParE => f * (3 / 2) | ParH => f * 3 end.
Definition next_down (p : par_kind) (N : Z) (f : R) : R :=
  match p with ParL => f - IZR N / 10 | ParE => f / (3 / 2) | ParH => f / 3 end.
Definition par_fn (p : par_kind) : chirp_fn :=
  match p with ParL => lchirp_fn | ParE => echirp_fn | ParH => hchirp_fn end.
(** fmin1, fmax1, fmin2, fmax2 as used *)
Definition par_freqs (p : par_kind) (N : Z) (fmin0 : R) (fmin1 fmax1 fmin2 fmax2 : option R)
  : R * R * R * R :=
  let fmin1 := or_default fmin1 fmin0 in
  let fmin2 := or_default fmin2 (next_up p N fmin1) in
  match fmax1, fmax2 with
  | None, _ => let f2 := IZR N / 2 in (fmin1, next_down p N f2, fmin2, f2)
  | Some f1, None => (fmin1, f1, fmin2, Rmin (IZR N / 2) (next_up p N f1))
  | Some f1, Some f2 => (fmin1, f1, fmin2, f2)
  end.
(** [x1 + x2]: equal lengths, both having the same [N] *)
Fixpoint vadd (a b : list R) : list R :=
  match a, b with x :: a, y :: b => (x + y) :: vadd a b | _, _ => [] end.
Definition par_chirp (p : par_kind) (s : tself) (fmin0 : R) (N : option Z)
  (fmin1 fmax1 fmin2 fmax2 : option R) (k : tkws) : res (list R * list R) :=
  let N := or_N s N in
  let '(a1, b1, a2, b2) := par_freqs p N fmin0 fmin1 fmax1 fmin2 fmax2 in
  do (x1, t) <- generate (par_fn p) s (Some N) a1 (Some b1) k;
  do (x2, _) <- generate (par_fn p) s (Some N) a2 (Some b2) k;
  Ok (vadd x1 x2, t).

(** 356-368 [am_sine], [am_cosine] *)
Definition am_tone (g : R -> R) (s : tself) (N : option Z) (f amin amax phi : R) (k : tkws) : res (list R * list R) :=
  do (a, t) <- tone g s (Some (or_N s N)) f phi k;
  Ok (map (fun x => amin + (amax - amin) * ((x + 1) / 2)) a, t).
(** 370-376 [am_exp] *)
Definition am_exp (s : tself) (N : option Z) (amin amax : R) (k : tkws) : res (list R * list R) :=
  do (t, tmin, tmax, _) <- process_params s (Some (or_N s N)) k None;
  do c <- echirp_fn tmin tmax amin amax;
  Ok (map (fun t => snd c t / (2 * PI)) t, t).
(** 378-383 [am_gauss]: the time keywords are not used *)
Definition am_gauss (s : tself) (N : option Z) (amin amax : R) (k : tkws) : res (list R * list R) :=
  do t <- times (-1) 1 (or_N s N) false;
  Ok (map (fun u => amin + (amax - amin) * exp (- ((u - mean t) ^ 2 * 5))) t, t).

(** 385-405 [jumps]; an empty [freqs] divides by zero *)
Definition jump_freqs (M : Z) (freqs : option (list R)) : list R :=
  or_default freqs [1; IZR M / 4; IZR M / 2; IZR M / 16].
Definition jumps (s : tself) (N : option Z) (freqs : option (list R)) (k : tkws) : res (list R * list R) :=
  let N := or_N s N in
  do (_, tmin, tmax, _) <- process_params s (Some N) k None;
  let n := match freqs with Some f => length f | None => 4%nat end in
  if (n =? 0)%nat then Err ZeroDivisionError
  else
    let M := (N / Z.of_nat n)%Z in
    let freqs := jump_freqs M freqs in
    let endpoint := or_default (k_end k) (d_end (ts_tkw s)) in
    do t_all <- times tmin ((tmax - tmin) * INR n) (M * Z.of_nat n) endpoint;
    Ok (concat (map (fun i => map (fun t => cos (2 * PI * nth i freqs 0 * t))
                                  (pyslice t_all (Z.of_nat i * M) ((Z.of_nat i + 1) * M))) (seq 0 n)),
        t_all).

(** 407-424 [packed] *)
Definition packed_freqs (N : Z) (freqs : option (list R)) : list R :=
  let n := IZR N in
  or_default freqs [5 / 10; 1; 2; n / 10; n / 10 + n / 50; n / 10 + n / 25; n / 5; n / 4; n / 3; n / 3 + n / 10].
(** [x[lo:hi] += cos(2*pi*f*t[lo:hi])] *)
Definition add_tone (f : R) (lo hi : Z) (t x : list R) : list R :=
  let n := Z.of_nat (length x) in
  tab (length x) (fun j =>
    if (norm_bound n lo <=? Z.of_nat j)%Z && (Z.of_nat j <? norm_bound n hi)%Z
    then nth j x 0 + cos (2 * PI * f * nth j t 0) else nth j x 0).
Fixpoint packed_loop (freqs : list R) (i : nat) (No : Z) (t x : list R) : list R :=
  match freqs with
  | [] => x
  | f :: freqs =>
      let x := if Nat.even i then add_tone f 0 No t x
               else add_tone f (- No) (Z.of_nat (length x)) t x in
      packed_loop freqs (S i) No t x
  end.
Definition packed (s : tself) (N : option Z) (freqs : option (list R)) (overlap : R) (k : tkws) : res (list R * list R) :=
  let N := or_N s N in
  do (t, _, _, _) <- process_params s (Some N) k None;
  let No := py_int (overlap * INR (length t)) in
  Ok (packed_loop (packed_freqs N freqs) 0 No t (repeat 0 (length t)), t).

(** toolkit.py:29-36 [cos_f], [sin_f] *)
Definition tones_f (g : R -> R) (freqs : list R) (N : Z) (phi : R) (endpoint : bool) : res (list R) :=
  if (length freqs =? 0)%nat then Err ValueError else
  fold_right (fun '(i, f) r => do t <- times (INR i) (INR i + 1) N endpoint; do r <- r;
                               Ok (map (fun t => g (2 * PI * f * (t + phi))) t ++ r))
             (Ok []) (combine (seq 0 (length freqs)) freqs).
