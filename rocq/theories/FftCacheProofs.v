(** Proofs about the FFT plan cache. *)
From Coq Require Import Reals Lra ZifyBool ZifyNat.
From Verif Require Import Py Cplx CplxProofs FftCache.
Local Open Scope R_scope.

(** the result of the call on its own, nothing cached *)
Definition alone (c : fcall) : res (option arr) :=
  let '(r, s) := fft_call false c start in view s r.
Definition tr_of (c : fcall) : res arr := transform (f_inv c) (f_real c) (f_axis c) (f_n c) (f_x c).
Lemma alone_eq c : alone c =
  if (f_pat c =? 0)%Z then match tr_of c with Ok v => Ok (Some v) | Err e => Err e end
  else match validate c with Err e => Err e | Ok _ => match tr_of c with Ok v => Ok (Some v) | Err e => Err e end end.
Proof.
  unfold alone, fft_call. fold (tr_of c). destruct (f_pat c =? 0)%Z; [destruct (tr_of c); reflexivity|].
  cbn [lookup]. destruct (validate c); [|reflexivity]. destruct (tr_of c); reflexivity.
Qed.

Lemma nth_error_snoc {A} (l : list A) v : nth_error (l ++ [v]) (length l) = Some v.
Proof. rewrite nth_error_app2, Nat.sub_diag by lia. reflexivity. Qed.
Lemma nth_error_snoc_lt {A} (l : list A) v a : (a < length l)%nat -> nth_error (l ++ [v]) a = nth_error l a.
Proof. intros H. now apply nth_error_app1. Qed.
Lemma write_length h a v : (a < length h)%nat -> length (write h a v) = length h.
Proof. intros H. unfold write. rewrite app_length. cbn [length]. rewrite firstn_length, skipn_length. lia. Qed.
Lemma write_same h a v : (a < length h)%nat -> nth_error (write h a v) a = Some v.
Proof.
  intros H. unfold write. rewrite nth_error_app2 by (rewrite firstn_length; lia).
  rewrite firstn_length. replace (a - Nat.min a (length h))%nat with 0%nat by lia. reflexivity.
Qed.
Lemma nth_error_skipn {A} (l : list A) a b : nth_error (skipn a l) b = nth_error l (a + b).
Proof. revert a. induction l as [|x l IH]; intros [|a]; cbn; auto. - now destruct b. Qed.
Lemma nth_error_firstn {A} (l : list A) a b : (b < a)%nat -> nth_error (firstn a l) b = nth_error l b.
Proof. revert a b. induction l as [|x l IH]; intros [|a] [|b] H; cbn; auto; try lia. apply IH. lia. Qed.
Lemma write_other h a b v : (a < length h)%nat -> b <> a -> nth_error (write h a v) b = nth_error h b.
Proof.
  intros H Hne. unfold write. destruct (Nat.lt_ge_cases b a) as [Hb|Hb].
  - rewrite nth_error_app1 by (rewrite firstn_length; lia). now apply nth_error_firstn.
  - rewrite nth_error_app2 by (rewrite firstn_length; lia). rewrite firstn_length.
    replace (b - Nat.min a (length h))%nat with (S (b - S a)) by lia. cbn [nth_error].
    rewrite nth_error_skipn. f_equal. lia.
Qed.
Lemma lookup_in k h p : lookup k h = Some p -> In (k, p) h.
Proof.
  induction h as [|[k' p'] h IH]; [discriminate|]. cbn. destruct (fkey_dec k k') as [->|].
  - intros E. left. congruence.
  - auto.
Qed.

(** plans come from earlier calls and own distinct buffers *)
Definition inv_st (cs : list fcall) (s : fstate) : Prop :=
  (forall k p, In (k, p) (history s) ->
     (p_out p < length (heap s))%nat /\
     exists c, In c cs /\ key_of c = k /\ p_inv p = f_inv c /\ f_pat c <> 0%Z /\ validate c = Ok tt) /\
  NoDup (map (fun e => p_out (snd e)) (history s)).
Lemma inv_start : inv_st [] start.
Proof. split; [intros k p []|constructor]. Qed.

(** what one call does *)
Lemma call_cases cache c cs s : inv_st cs s ->
  exists r s', fft_call cache c s = (r, s') /\ inv_st (cs ++ [c]) s' /\
  (length (heap s) <= length (heap s'))%nat /\
  (forall k p, In (k, p) (history s) -> In (k, p) (history s')) /\
  (* later plans get new buffers *)
  (forall k p, In (k, p) (history s') -> In (k, p) (history s) \/ (length (heap s) <= p_out p)%nat) /\
  (* only the plan of this very key is overwritten *)
  (forall a, (a < length (heap s))%nat ->
     nth_error (heap s') a = nth_error (heap s) a \/
     (cache = true /\ f_pat c <> 0%Z /\ exists p, In (key_of c, p) (history s) /\ p_out p = a)) /\
  match r with
  | Err e => True
  | Ok a => (a < length (heap s'))%nat /\
      ((forall k p, In (k, p) (history s') -> p_out p <> a) \/
       (cache = true /\ f_pat c <> 0%Z /\ exists p, In (key_of c, p) (history s') /\ p_out p = a))
  end.
Proof.
  intros [I1 I2].
  assert (Keep : inv_st (cs ++ [c]) s).
  { split; [|exact I2]. intros k p H. destruct (I1 k p H) as (A & c' & B & D). split; [auto|].
    exists c'. split; [apply in_or_app; auto|exact D]. }
  assert (Ext : forall v, inv_st (cs ++ [c]) (FS (heap s ++ [v]) (history s))).
  { intros v. destruct Keep as [K1 K2]. split; [|exact K2]. cbn [heap history]. intros k p H.
    destruct (K1 k p H) as (A & D). rewrite app_length. cbn [length]. split; [lia|exact D]. }
  assert (New : forall v, (length (heap s) < length (heap s ++ [v]))%nat /\
                 (forall k p, In (k, p) (history s) -> p_out p <> length (heap s))).
  { intros v. rewrite app_length. cbn [length]. split; [lia|]. intros k p H. destruct (I1 k p H). lia. }
  assert (Same : forall e, exists r s', (@Err nat e, s) = (r, s') /\ inv_st (cs ++ [c]) s' /\
    (length (heap s) <= length (heap s'))%nat /\
    (forall k p, In (k, p) (history s) -> In (k, p) (history s')) /\
    (forall k p, In (k, p) (history s') -> In (k, p) (history s) \/ (length (heap s) <= p_out p)%nat) /\
    (forall a, (a < length (heap s))%nat -> nth_error (heap s') a = nth_error (heap s) a \/
       (cache = true /\ f_pat c <> 0%Z /\ exists p, In (key_of c, p) (history s) /\ p_out p = a)) /\
    match r with Err e => True | Ok a => (a < length (heap s'))%nat /\
      ((forall k p, In (k, p) (history s') -> p_out p <> a) \/
       (cache = true /\ f_pat c <> 0%Z /\ exists p, In (key_of c, p) (history s') /\ p_out p = a)) end).
  { intros e. exists (Err e), s. split; [reflexivity|]. split; [exact Keep|]. split; [lia|]. split; [auto|].
    split; [auto|]. split; [auto|exact I]. }
  assert (Fresh : forall v, exists r s', (Ok (length (heap s)), FS (heap s ++ [v]) (history s)) = (r, s') /\
    inv_st (cs ++ [c]) s' /\ (length (heap s) <= length (heap s'))%nat /\
    (forall k p, In (k, p) (history s) -> In (k, p) (history s')) /\
    (forall k p, In (k, p) (history s') -> In (k, p) (history s) \/ (length (heap s) <= p_out p)%nat) /\
    (forall a, (a < length (heap s))%nat -> nth_error (heap s') a = nth_error (heap s) a \/
       (cache = true /\ f_pat c <> 0%Z /\ exists p, In (key_of c, p) (history s) /\ p_out p = a)) /\
    match r with Err e => True | Ok a => (a < length (heap s'))%nat /\
      ((forall k p, In (k, p) (history s') -> p_out p <> a) \/
       (cache = true /\ f_pat c <> 0%Z /\ exists p, In (key_of c, p) (history s') /\ p_out p = a)) end).
  { intros v. eexists _, _. split; [reflexivity|]. destruct (New v) as [N1 N2]. cbn [heap history].
    split; [apply Ext|]. split; [lia|]. split; [auto|]. split; [auto|].
    split; [intros a Ha; left; now apply nth_error_snoc_lt|]. split; [exact N1|]. left. exact N2. }
  unfold fft_call. fold (tr_of c). destruct (f_pat c =? 0)%Z eqn:P.
  { destruct (tr_of c) as [v|e]; [apply Fresh|apply Same]. }
  assert (P' : f_pat c <> 0%Z) by lia.
  destruct (if cache then lookup (key_of c) (history s) else None) as [p|] eqn:L.
  - destruct cache; [|discriminate]. apply lookup_in in L.
    destruct (transform (p_inv p) (f_real c) (f_axis c) (f_n c) (f_x c)) as [v|e]; [|apply Same].
    destruct (I1 _ _ L) as (A & _). eexists _, _. split; [reflexivity|]. cbn [heap history].
    assert (W : length (write (heap s) (p_out p) v) = length (heap s)) by now apply write_length.
    split. { destruct Keep as [K1 K2]. split; [|exact K2]. cbn [heap history]. rewrite W. exact K1. }
    rewrite W. split; [lia|]. split; [auto|]. split; [auto|]. split.
    { intros a Ha. destruct (Nat.eq_dec a (p_out p)) as [->|Hne]; [right|left; now apply write_other].
      split; [auto|]. split; [auto|]. eauto. }
    split; [exact A|]. right. split; [auto|]. split; [auto|]. eauto.
  - destruct (validate c) as [[]|e] eqn:V; [|apply Same].
    destruct (tr_of c) as [v|e]; [|apply Same]. destruct cache; [|apply Fresh].
    eexists _, _. split; [reflexivity|]. destruct (New v) as [N1 N2]. cbn [heap history p_out].
    split.
    { split; cbn [heap history].
      - intros k q [E|H].
        + injection E as <- <-. cbn [p_out p_inv]. split; [exact N1|]. exists c.
          split; [apply in_or_app; right; left; reflexivity|]. split; [reflexivity|]. split; [reflexivity|]. auto.
        + destruct (Ext v) as [K1 _]. now apply K1.
      - cbn [map snd p_out]. constructor; [|exact I2]. intros H. apply in_map_iff in H as ([k q] & E & H).
        cbn in E. apply (N2 k q H). exact E. }
    split; [lia|]. split; [intros k q H; right; exact H|]. split.
    { intros k q [E|H]; [right; injection E as <- <-; cbn; lia|left; exact H]. }
    split; [intros a Ha; left; now apply nth_error_snoc_lt|]. split; [exact N1|].
    right. split; [auto|]. split; [auto|]. eexists. split; [left; reflexivity|reflexivity].
Qed.

Lemma run_snoc cache cs c s : snd (fft_run cache (cs ++ [c]) s) = snd (fft_call cache c (snd (fft_run cache cs s))).
Proof.
  revert s. induction cs as [|c' cs IH]; intros s; cbn [fft_run app].
  - cbn [snd]. destruct (fft_call cache c s). reflexivity.
  - destruct (fft_call cache c' s) as [r1 s1]. specialize (IH s1).
    destruct (fft_run cache (cs ++ [c]) s1), (fft_run cache cs s1). exact IH.
Qed.
Lemma run_cons cache c cs s : snd (fft_run cache (c :: cs) s) = snd (fft_run cache cs (snd (fft_call cache c s))).
Proof. cbn [fft_run]. destruct (fft_call cache c s) as [r s1]. cbn [snd]. destruct (fft_run cache cs s1). reflexivity. Qed.
Lemma inv_run cache cs : inv_st cs (snd (fft_run cache cs start)).
Proof.
  induction cs as [|c cs IH] using rev_ind; [exact inv_start|]. rewrite run_snoc.
  destruct (call_cases cache c cs _ IH) as (r & s' & E & I & _). rewrite E. exact I.
Qed.

(** a returned buffer stays as it is if no later pyfftw call has the key of its plan *)
Lemma untouched cache cs a : forall cs0 s (k : fkey), inv_st cs0 s -> (a < length (heap s))%nat ->
  ((forall k p, In (k, p) (history s) -> p_out p <> a) \/
   ((forall c, In c cs -> cache = false \/ f_pat c = 0%Z \/ key_of c <> k) /\
    exists p, In (k, p) (history s) /\ p_out p = a)) ->
  nth_error (heap (snd (fft_run cache cs s))) a = nth_error (heap s) a.
Proof.
  induction cs as [|c cs IH]; intros cs0 s k I Ha H; [reflexivity|]. rewrite run_cons.
  destruct (call_cases cache c cs0 s I) as (r & s' & E & I' & L & Hk & Hn & Hw & _). rewrite E. cbn [snd].
  rewrite (IH (cs0 ++ [c]) s' k I' ltac:(lia)).
  - destruct (Hw a Ha) as [W|(Hc & Hp & p & Hin & Ho)]; [exact W|]. exfalso. destruct H as [H|[H (q & Hq & Hqo)]].
    + now apply (H _ _ Hin).
    + destruct (H c (or_introl eq_refl)) as [X|[X|X]]; [congruence|congruence|]. apply X.
      (* two plans with the same buffer *)
      destruct I as [_ N]. clear - N Hin Hq Ho Hqo.
      induction (history s) as [|e h IHh]; [destruct Hin|]. cbn [map] in N. inversion N as [|? ? N1 N2]; subst.
      destruct Hin as [->|Hin], Hq as [E|Hq].
      * congruence.
      * exfalso. apply N1. apply in_map_iff. exists (k, q). cbn. split; [congruence|auto].
      * subst e. exfalso. apply N1. apply in_map_iff. exists (key_of c, p). cbn. split; [congruence|auto].
      * now apply IHh.
  - destruct H as [H|[H (q & Hq & Hqo)]].
    + left. intros k' p' Hp'. destruct (Hn k' p' Hp') as [X|X]; [now apply (H k' p')|lia].
    + right. split; [intros c' Hc'; apply H; right; exact Hc'|]. exists q. auto.
Qed.

(** ** nothing cached *)
Theorem uncached_right cs1 c cs2 :
  let s1 := snd (fft_run false cs1 start) in
  let '(r, s2) := fft_call false c s1 in
  view s2 r = alone c /\ view (snd (fft_run false cs2 s2)) r = alone c.
Proof.
  intros s1. pose proof (inv_run false cs1) as I. fold s1 in I.
  destruct (call_cases false c cs1 s1 I) as (r & s2 & E & I2 & _ & _ & _ & _ & Hr). rewrite E.
  assert (V : view s2 r = alone c).
  { rewrite alone_eq. unfold fft_call in E. fold (tr_of c) in E. destruct (f_pat c =? 0)%Z.
    - destruct (tr_of c); injection E as <- <-; cbn; [now rewrite nth_error_snoc|reflexivity].
    - destruct (validate c); [|injection E as <- <-; reflexivity].
      destruct (tr_of c); injection E as <- <-; cbn; [now rewrite nth_error_snoc|reflexivity]. }
  split; [exact V|]. rewrite <- V. destruct r as [a|e]; [|reflexivity]. cbn [view]. f_equal.
  destruct Hr as [Ha [Hn|[X _]]]; [|discriminate].
  apply (untouched false cs2 a (cs1 ++ [c]) s2 (key_of c) I2 Ha). left. exact Hn.
Qed.

(** ** cached *)
Theorem cached_right cs1 c cs2 :
  (f_pat c = 0%Z \/ ((f_pat c = 1%Z \/ f_pat c = 2%Z) /\
     forall c', In c' cs1 -> f_pat c' = 0%Z \/ key_of c' <> key_of c \/ f_inv c' = f_inv c)) ->
  let s1 := snd (fft_run true cs1 start) in
  let '(r, s2) := fft_call true c s1 in
  view s2 r = alone c /\
  ((f_pat c = 0%Z \/ forall c', In c' cs2 -> f_pat c' = 0%Z \/ key_of c' <> key_of c) ->
   view (snd (fft_run true cs2 s2)) r = alone c).
Proof.
  intros H s1. pose proof (inv_run true cs1) as I. fold s1 in I.
  destruct (call_cases true c cs1 s1 I) as (r & s2 & E & I2 & _ & _ & _ & _ & Hr). rewrite E.
  assert (V : view s2 r = alone c).
  { rewrite alone_eq. unfold fft_call in E. fold (tr_of c) in E. destruct (f_pat c =? 0)%Z eqn:P.
    - destruct (tr_of c); injection E as <- <-; cbn; [now rewrite nth_error_snoc|reflexivity].
    - destruct H as [H|[Hpat Hdir]]; [lia|].
      destruct (lookup (key_of c) (history s1)) as [p|] eqn:L.
      + apply lookup_in in L. destruct I as [I1 _]. destruct (I1 _ _ L) as (A & c0 & B & K & D & Pc & Vc).
        destruct (Hdir c0 B) as [X|[X|X]]; [congruence|congruence|]. rewrite X in D. rewrite D in E.
        fold (tr_of c) in E.
        assert (Vl : validate c = Ok tt).
        { unfold key_of in K. injection K as K1 K2 K3 K4 K5. unfold validate in *. rewrite K2, K3, K4, X in Vc.
          destruct (a_dtype (f_x c)); try discriminate;
            (destruct (f_real c && negb (f_inv c) && _); [discriminate|]; destruct (negb _); [discriminate|];
             replace ((f_pat c =? 0)%Z || (f_pat c =? 1)%Z || (f_pat c =? 2)%Z) with true by lia; reflexivity). }
        rewrite Vl. destruct (tr_of c); injection E as <- <-; cbn; [now rewrite write_same|reflexivity].
      + destruct (validate c); [|injection E as <- <-; reflexivity].
        destruct (tr_of c); injection E as <- <-; cbn; [now rewrite nth_error_snoc|reflexivity]. }
  split; [exact V|]. intros H2. rewrite <- V. destruct r as [a|e]; [|reflexivity]. cbn [view]. f_equal.
  destruct Hr as [Ha Hr].
  apply (untouched true cs2 a (cs1 ++ [c]) s2 (key_of c) I2 Ha).
  destruct Hr as [Hn|(_ & Pn & p & Hp)]; [left; exact Hn|]. right. split; [|eauto].
  intros c' Hc'. right. destruct H2 as [H2|H2]; [congruence|]. now apply H2.
Qed.

(** ** witnesses: complex input of length 2 *)
Definition sig2 (a b : R) : arr := Arr [2%nat] C128 (fun _ j => if (j =? 0)%nat then RtoC a else RtoC b).
Definition fft_of (x : arr) : fcall := FC false false (-1) None 1 x.
Definition ifft_of (x : arr) : fcall := FC true false (-1) None 1 x.
(** first entry of a result *)
Definition first_entry (v : res (option arr)) : option C :=
  match v with Ok (Some x) => Some (a_data x 0%nat 0%nat) | _ => None end.
Lemma dft2_0 (x : nat -> C) : dft 2 x 0 = Cadd (x 0%nat) (x 1%nat).
Proof.
  unfold dft. cbn [Csum]. unfold tw. cbn [Z.of_nat Z.mul Z.opp].
  replace (2 * PI * 0 / INR 2) with 0 by (unfold Rdiv; ring). unfold cis. rewrite cos_0, sin_0.
  apply injective_projections; cbn; ring.
Qed.
Lemma idft2_0 (x : nat -> C) : idft 2 x 0 = Cmul (RtoC (/ 2)) (Cadd (x 0%nat) (x 1%nat)).
Proof.
  unfold idft. cbn [Csum]. unfold tw. cbn [Z.of_nat Z.mul Z.opp].
  replace (2 * PI * 0 / INR 2) with 0 by (unfold Rdiv; ring). unfold cis. rewrite cos_0, sin_0.
  apply injective_projections; cbn; field.
Qed.
Lemma ifft_after_fft : exists c1 c2, f_inv c1 = false /\ f_inv c2 = true /\ validate c2 = Ok tt /\
  let '(r, s) := fft_call true c2 (snd (fft_run true [c1] start)) in view s r <> alone c2.
Proof.
  exists (fft_of (sig2 1 0)), (ifft_of (sig2 1 0)). split; [reflexivity|]. split; [reflexivity|].
  split; [reflexivity|].
  assert (A : first_entry (alone (ifft_of (sig2 1 0))) = Some (/ 2, 0)).
  { rewrite alone_eq. cbn [f_pat ifft_of Z.eqb validate f_x a_dtype sig2 f_real f_inv andb negb f_axis orb].
    cbn. rewrite idft2_0. cbn. f_equal. apply injective_projections; cbn; ring. }
  assert (B : first_entry (let '(r, s) := fft_call true (ifft_of (sig2 1 0)) (snd (fft_run true [fft_of (sig2 1 0)] start)) in view s r)
              = Some (1, 0)).
  { cbn -[dft fkey_dec]. destruct (fkey_dec _ _) as [_|N]; [|exfalso; apply N; reflexivity].
    cbn -[dft fkey_dec]. rewrite dft2_0. cbn. f_equal. apply injective_projections; cbn; ring. }
  destruct (fft_call true (ifft_of (sig2 1 0)) _) as [r s]. intros X. rewrite X, A in B.
  injection B as B. lra.
Qed.
Lemma result_overwritten : exists c1 c2, f_inv c1 = f_inv c2 /\ validate c1 = Ok tt /\ validate c2 = Ok tt /\
  let '(r, s) := fft_call true c1 start in view s r = alone c1 /\ view (snd (fft_run true [c2] s)) r <> alone c1.
Proof.
  exists (fft_of (sig2 1 0)), (fft_of (sig2 0 0)). split; [reflexivity|]. split; [reflexivity|]. split; [reflexivity|].
  assert (A : first_entry (alone (fft_of (sig2 1 0))) = Some (1, 0)).
  { rewrite alone_eq. cbn -[dft]. rewrite dft2_0. cbn. f_equal. apply injective_projections; cbn; ring. }
  assert (B : first_entry (let '(r, s) := fft_call true (fft_of (sig2 1 0)) start in
                           view (snd (fft_run true [fft_of (sig2 0 0)] s)) r) = Some (0, 0)).
  { cbn -[dft fkey_dec]. destruct (fkey_dec _ _) as [_|N]; [|exfalso; apply N; reflexivity].
    cbn -[dft fkey_dec]. rewrite dft2_0. cbn. f_equal. apply injective_projections; cbn; ring. }
  pose proof (cached_right [] (fft_of (sig2 1 0)) [] (or_intror (conj (or_introl eq_refl) (fun c' (F : In c' []) => False_ind _ F)))) as C.
  cbn [fft_run snd] in C.
  destruct (fft_call true (fft_of (sig2 1 0)) start) as [r s]. split; [exact (proj1 C)|]. intros X. rewrite X, A in B.
  injection B as B. lra.
Qed.
Lemma bad_patience_accepted : exists c1 c2, f_inv c1 = f_inv c2 /\ alone c2 = Err ValueError /\
  let '(r, s) := fft_call true c2 (snd (fft_run true [c1] start)) in exists v, view s r = Ok (Some v).
Proof.
  exists (fft_of (sig2 1 0)), (FC false false (-1) None 7 (sig2 1 0)).
  split; [reflexivity|]. split; [rewrite alone_eq; reflexivity|].
  cbn -[dft fkey_dec]. destruct (fkey_dec _ _) as [_|N]; [|exfalso; apply N; reflexivity]. cbn -[dft fkey_dec]. eauto.
Qed.
Lemma alone_transform c : f_pat c = 0%Z \/ validate c = Ok tt ->
  alone c = match transform (f_inv c) (f_real c) (f_axis c) (f_n c) (f_x c) with
            | Ok v => Ok (Some v)
            | Err e => Err e
            end.
Proof.
  intros H. rewrite alone_eq. fold (tr_of c). destruct (f_pat c =? 0)%Z eqn:P; [reflexivity|].
  destruct H as [H| ->]; [lia|reflexivity].
Qed.
