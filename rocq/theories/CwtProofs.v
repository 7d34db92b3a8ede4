(** Facts about [cwt]: what a run computes and how it leaves the state. *)
From Coq Require Import Reals Lra.
From Verif Require Import Py Round Cplx CplxProofs Padding PaddingProofs Buffer Freqs Squeeze Scales Cwt.
Local Open Scope R_scope.

(** the patience value can be used: accepted by the setter, and pyfftw present if needed *)
Definition usable (py : bool) (p : Z) : bool := py || (p =? 0)%Z.
Definition usable_arg (py : bool) (a : pat_arg) : bool :=
  match a with
  | PatInt p => (0 <=? p)%Z && (p <=? 2)%Z && usable py p
  | PatTuple p _ => usable py p
  | PatBad => false
  end.

(** the wavelet array a run multiplies with *)
Definition psih_used (inst : bool) (f : wfun) (a : cwt_args) (scales : list R) (n : nat)
  (cache : option (nat * list R * mat C)) : mat C :=
  if a_vec a then
    if use_cache inst (a_vec a) (a_cache a) then
      match cache with
      | Some (pN, ps, P) =>
          if (n =? pN)%nat && (length scales =? length ps)%nat && allclose scales ps then P
          else wavelet_call f scales n false
      | None => wavelet_call f scales n false
      end
    else wavelet_call f scales n false
  else Mat (length scales) n (fun i k => el (wavelet_call f [nth i scales 0] n false) 0 k).
Definition cache_after (inst : bool) (f : wfun) (a : cwt_args) (scales : list R) (n : nat)
  (cache : option (nat * list R * mat C)) : option (nat * list R * mat C) :=
  if use_cache inst (a_vec a) (a_cache a) then
      match cache with
      | Some (pN, ps, P) =>
          if (n =? pN)%nat && (length scales =? length ps)%nat && allclose scales ps then cache
          else Some (n, scales, wavelet_call f scales n false)
      | None => Some (n, scales, wavelet_call f scales n false)
      end
  else cache.

Definition sig_dft (xp : list R) : nat -> C := dft (length xp) (fun m => RtoC (nth m xp 0)).
Definition raw (p : mat C) (L n : nat) (xh : nat -> C) : mat C := Mat L n (cwt_cell p n xh).
Definition draw (vec : bool) (p : mat C) (L n : nat) (fs : R) (xh : nat -> C) : mat C :=
  Mat L n (if vec then dcwt_cell p n fs xh
           else fun i => idft n (fun k => Cmul (Cmul (0, nth k (xifn 1 n) 0 * fs) (el p i k)) (xh k))).

Definition pre (f : wfun) (a : cwt_args) (x : list R) (fs : R) (xp : list R) (n1 : Z) (scales : list R) : Prop :=
  process_fs_and_t (a_fs a) (a_t a) (length x) = Ok fs /\ check_gmw f (a_l1 a) = Ok tt /\
  pad_input (a_pad a) x = Ok (xp, n1) /\
  process_scales (a_scales a) (a_f64s a) (length x) = Ok scales.

Lemma cwt_run py inst f a x s fs xp n1 scales : pre f a x fs xp n1 scales ->
  usable py (s_pat s) = true -> usable_arg py (a_pat a) = true ->
  let n := length xp in let N := length x in
  let p := psih_used inst f a scales n (s_cache s) in
  cwt py inst f a x s =
    (Ok (finish a n1 N scales (raw p (length scales) n (sig_dft xp)), scales,
         if a_deriv a then Some (finish a n1 N scales (draw (a_vec a) p (length scales) n fs (sig_dft xp)))
         else None),
     CS (s_pat s) (s_lim s) (s_N s) (cache_after inst f a scales n (s_cache s))).
Proof.
  intros (Hfs & Hg & Hp & Hsc) U1 U2 n N p.
  destruct s as [pat lim N0 cache]. simpl in *.
  unfold cwt, mbind, lift. rewrite Hfs, Hg, Hp. unfold fft_check. simpl.
  assert (negb py && negb (pat =? 0)%Z = false) as -> by (unfold usable in U1; destruct py, (pat =? 0)%Z; auto).
  rewrite Hsc. fold n N.
  assert (exists q l, set_patience (a_pat a) (CS pat lim n cache) = (Ok tt, CS q l n cache) /\
                      negb py && negb (q =? 0)%Z = false) as (q & l & -> & Eq).
  { unfold set_patience, usable_arg, usable in *. destruct (a_pat a) as [q|q l|]; simpl.
    - destruct ((0 <=? q)%Z && (q <=? 2)%Z) eqn:E; [|discriminate].
      exists q, lim. split; [reflexivity|]. destruct py, (q =? 0)%Z; auto.
    - exists q, l. split; [reflexivity|]. destruct py, (q =? 0)%Z; auto.
    - discriminate. }
  subst p. unfold psih_used, cache_after, draw, raw.
  destruct (a_vec a) eqn:Ev.
  - unfold vectorized, mbind, fft_check, mret.
    destruct (use_cache inst true (a_cache a)).
    + unfold Psih. cbn [s_cache s_N s_pat s_lim].
      destruct cache as [[[pN ps] P]|]; [destruct (_ && allclose scales ps)|];
        cbn [s_pat s_lim s_N s_cache]; rewrite Eq; simpl; destruct (a_deriv a); reflexivity.
    + cbn [s_pat s_lim s_N s_cache]. rewrite Eq; simpl; destruct (a_deriv a); reflexivity.
  - unfold for_loop, mbind, fft_check, mret. cbn [s_pat s_lim s_N s_cache]. rewrite Eq.
    replace (use_cache inst false (a_cache a)) with false
      by (destruct inst, (a_cache a) as [[]|]; reflexivity).
    simpl. destruct (a_deriv a); reflexivity.
Qed.

(** what a run that returns must have satisfied *)
Lemma cwt_ok_inv py inst f a x s r s' : cwt py inst f a x s = (Ok r, s') ->
  (exists fs xp n1 scales, pre f a x fs xp n1 scales) /\
  usable py (s_pat s) = true /\ usable_arg py (a_pat a) = true.
Proof.
  destruct s as [pat lim N0 cache].
  unfold cwt, mbind, lift, pre.
  destruct (process_fs_and_t _ _ _) as [fs|]; [|discriminate].
  destruct (check_gmw _ _) as [[]|]; [|discriminate].
  destruct (pad_input _ _) as [[xp n1]|]; [|discriminate].
  unfold fft_check at 1. cbn [s_pat].
  destruct (negb py && negb (pat =? 0)%Z) eqn:E1; [discriminate|].
  destruct (process_scales _ _ _) as [scales|]; [|discriminate].
  intros H. split; [exists fs, xp, n1, scales; repeat split; reflexivity|].
  split; [unfold usable; simpl; destruct py, (pat =? 0)%Z; auto|].
  unfold set_N at 1 in H. cbn [s_pat s_lim s_N s_cache] in H. revert H.
  unfold set_patience at 1, usable_arg.
  assert (forall q l,
    (match (if a_vec a then vectorized py f (use_cache inst (a_vec a) (a_cache a)) scales (length xp) fs (a_deriv a)
             (dft (length xp) (fun m => RtoC (nth m xp 0)))
      else for_loop py f scales (length xp) fs (a_deriv a) (dft (length xp) (fun m => RtoC (nth m xp 0))))
             (CS q l (length xp) cache)
     with (Ok _, _) => True | (Err _, _) => False end) -> usable py q = true) as K.
  { intros q l. unfold usable. destruct py; [reflexivity|]. simpl.
    destruct (a_vec a).
    - unfold vectorized, mbind, fft_check, mret.
      destruct (use_cache _ _ _).
      + unfold Psih. cbn [s_cache s_N s_pat s_lim].
        destruct cache as [[[pN ps] P]|]; [destruct (_ && allclose scales ps)|];
          cbn [s_pat s_lim s_N s_cache]; destruct (q =? 0)%Z; simpl; tauto.
      + cbn [s_pat s_lim s_N s_cache]. destruct (q =? 0)%Z; simpl; tauto.
    - unfold for_loop, mbind, fft_check, mret. cbn [s_pat s_lim s_N s_cache].
      destruct (q =? 0)%Z; simpl; tauto. }
  destruct (a_pat a) as [q|q l|].
  - destruct ((0 <=? q)%Z && (q <=? 2)%Z); [|discriminate]. simpl.
    intros H. apply K with (l := lim). cbn [s_lim s_N s_cache] in H.
    match goal with |- match ?m with _ => _ end => destruct m as [[?|?] ?] end; [exact I|discriminate].
  - intros H. apply K with (l := l). cbn [s_lim s_N s_cache] in H.
    match goal with |- match ?m with _ => _ end => destruct m as [[?|?] ?] end; [exact I|discriminate].
  - discriminate.
Qed.
