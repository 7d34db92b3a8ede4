From Coq Require Import ZifyBool ZifyNat.
From Verif Require Import Py Padding PaddingProofs Buffer BufferProofs Cplx CplxProofs Freqs Stft.
Local Open Scope Z_scope.
Ltac Zify.zify_post_hook ::= Z.div_mod_to_equations.

(** ** padding as used by stft *)
Definition pad_usable (pt : padtype) (N n_fft : Z) : Prop :=
  pt <> PSymmetric \/ (2 <= n_fft /\ n_fft - 1 <= 2 * N).

Lemma stft_pad (x : list R) pt n :
  x <> [] -> 1 <= n -> pad_usable pt (Z.of_nat (length x)) n ->
  exists xp, padsignal 0%R x pt (Some (Z.of_nat (length x) + n - 1))
             = Ok (xp, Z.of_nat (length x) + n - 1, n / 2, (n - 1) / 2) /\
    Z.of_nat (length xp) = Z.of_nat (length x) + n - 1 /\
    forall i, (i < length x)%nat -> nth (Z.to_nat (n / 2) + i) xp 0%R = nth i x 0%R.
Proof.
  intros Hx Hn Hp. set (N := Z.of_nat (length x)) in *.
  assert (HN : 1 <= N) by (unfold N; destruct x; [congruence|simpl; lia]).
  assert (Ew : pad_widths N (Some (N + n - 1)) = (N + n - 1, n / 2, (n - 1) / 2)).
  { unfold pad_widths. replace (N + n - 1 - N) with (n - 1) by lia.
    destruct (Z.eqb_spec (Z.abs (n - 1) mod 2) 0); (apply (f_equal2 pair); [apply (f_equal2 pair)|]; lia). }
  destruct (padtype_eq_dec pt PSymmetric) as [->|Hs].
  - destruct Hp as [Hp|Hp]; [congruence|].
    destruct (padsignal_sym _ 0%R x (Some (N + n - 1)) (N + n - 1) (n / 2) ((n - 1) / 2) Hx) as (xp & E & Hl & Hat).
    + intros p Hp'. injection Hp' as <-. unfold N in *. lia.
    + exact Ew.
    + unfold N in *. lia.
    + exists xp. split; [exact E|]. split; [exact Hl|]. intros i Hi.
      replace (Z.to_nat (n / 2) + i)%nat with (Z.to_nat (n / 2 + Z.of_nat i)) by lia.
      rewrite Hat by (unfold N; lia).
      destruct (Z.ltb_spec (n / 2 + Z.of_nat i) (n / 2)); [lia|].
      destruct (Z.ltb_spec (n / 2 + Z.of_nat i) (n / 2 + Z.of_nat (length x))); [|lia].
      f_equal. lia.
  - destruct (padsignal_np _ 0%R x pt (Some (N + n - 1)) (N + n - 1) (n / 2) ((n - 1) / 2) Hx Hs) with (2 := Ew)
      as (xp & E & Hl & Hat).
    + intros p Hp'. injection Hp' as <-. unfold N in *. lia.
    + exists xp. split; [exact E|]. split; [exact Hl|]. intros i Hi.
      replace (Z.to_nat (n / 2) + i)%nat with (Z.to_nat (n / 2 + Z.of_nat i)) by lia.
      rewrite Hat by (unfold N; lia). rewrite pad_at_inside by lia. f_equal. lia.
Qed.

(** ** windows *)
Lemma bcast_nth w r : (r < length w)%nat -> bcast w r = nth r w 0%R.
Proof.
  intros H. unfold bcast. destruct (Nat.eqb_spec (length w) 1); auto.
  replace r with 0%nat by lia. reflexivity.
Qed.

Lemma get_window_len wa wl n w : 0 <= wl -> get_window wa wl n = Ok w ->
  (forall v, wa = WArray v -> Z.of_nat (length v) = wl) ->
  (forall g, wa = WGen g -> Z.of_nat (length (g wl)) = wl) ->
  let v := match wa with WArray v => v | WGen g => g wl end in
  Z.of_nat (length w) = n /\
  w = repeat 0%R (Z.to_nat ((n - wl) / 2)) ++ v ++
      repeat 0%R (Z.to_nat (n - wl - (n - wl) / 2)).
Proof.
  intros H0 E Ha Hg v. unfold get_window in E.
  destruct (wl >? n) eqn:Egt; [discriminate|].
  assert (Hle : wl <= n) by lia. clear Egt.
  assert (Hv : Z.of_nat (length v) = wl) by (destruct wa; [eapply Ha|eapply Hg]; reflexivity).
  fold v in E.
  destruct (Z.ltb_spec (Z.of_nat (length v)) (wl + (n - wl) / 2 + (n - wl - (n - wl) / 2))) as [Hlt|Hge];
    injection E as <-.
  - split; [|reflexivity]. rewrite !app_length, !repeat_length. lia.
  - assert (n = wl) as -> by lia. replace (wl - wl) with 0 by lia. cbn.
    rewrite app_nil_r. split; [lia|reflexivity].
Qed.

(** ** the formula *)
Section Formula.
Variables (x : list R) (a : stft_args) (n : Z) (w : list R).
Let N := Z.of_nat (length x).
Hypothesis Hx : x <> [].
Hypothesis Hn : 1 <= n.
Hypothesis Hhop : 1 <= a_hop a.
Hypothesis Hnf : stft_n_fft a N = Ok n.
Hypothesis Hw : get_window (a_window a) (stft_win_len a n) n = Ok w.
Hypothesis Hlw : Z.of_nat (length w) = n.
Hypothesis Hf32 : a_f32 a = true -> a_hop a <= n.
Hypothesis Hpad : pad_usable (a_padtype a) N n.

(** phase reference of the transform, in samples from the window start *)
Definition phase_ref : Z := if a_modulated a then n / 2 else 0.

Definition stft_val (g : list R) (xp : list R) (k h : nat) : C :=
  Csum (Z.to_nat n) (fun u =>
    Cmul (RtoC (nth (Z.to_nat (a_hop a) * h + u) xp 0 * nth u g 0)%R)
         (tw (Z.to_nat n) (- (Z.of_nat k * (Z.of_nat u - phase_ref))))).

Lemma diff_window_length v : length (diff_window v) = length v.
Proof. unfold diff_window. apply tab_length. Qed.

Lemma nth_map_scal (l : list R) c i :
  nth i (map (fun v => (v * c)%R) l) 0%R = (nth i l 0 * c)%R.
Proof.
  replace 0%R with (0 * c)%R at 1 by ring.
  exact (map_nth (fun v => (v * c)%R) l 0%R i).
Qed.

Lemma map_ifftshift (l : list R) c :
  map (fun v => (v * c)%R) (ifftshift l) = ifftshift (map (fun v => (v * c)%R) l).
Proof.
  unfold ifftshift. rewrite map_length, map_app, skipn_map, firstn_map. reflexivity.
Qed.

(** one windowed, transformed column *)
Lemma stft_cols_val xp m g k h :
  nrows m = Z.to_nat n ->
  col m h = (let s := pyslice xp (a_hop a * Z.of_nat h) (a_hop a * Z.of_nat h + n) in
             if a_modulated a then ifftshift s else s) ->
  a_hop a * Z.of_nat h + n <= Z.of_nat (length xp) ->
  Z.of_nat (length g) = n ->
  el (stft_cols m (if a_modulated a then ifftshift g else g)) k h = stft_val g xp k h.
Proof.
  intros Hm Hcol Hfit Hg. unfold stft_cols, stft_val, rfft. cbn [el]. rewrite Hm.
  set (nf := Z.to_nat n) in *.
  assert (Hnf1 : (1 <= nf)%nat) by lia.
  set (s := pyslice xp (a_hop a * Z.of_nat h) (a_hop a * Z.of_nat h + n)) in *.
  assert (Hs : length s = nf) by (unfold s; rewrite pyslice_length; nia).
  assert (Hsn : forall u, (u < nf)%nat -> nth u s 0%R = nth (Z.to_nat (a_hop a) * h + u) xp 0%R).
  { intros u Hu. unfold s. rewrite pyslice_nth by nia. f_equal. nia. }
  set (y := fun u => RtoC (nth u s 0 * nth u g 0)%R).
  assert (Hel : forall r, (r < nf)%nat -> el m r h = nth r (col m h) 0%R).
  { intros r Hr. unfold col. rewrite Hm, nth_tab by lia. reflexivity. }
  unfold phase_ref. destruct (a_modulated a).
  - rewrite (dft_ext nf _ (fun r => y ((r + nf / 2) mod nf)%nat)).
    2:{ intros r Hr. rewrite Hel, Hcol by auto. cbv zeta.
        rewrite bcast_nth by (rewrite ifftshift_length; lia).
        rewrite !nth_ifftshift by lia. unfold y. rewrite Hs.
        replace (length g) with nf by lia. reflexivity. }
    rewrite (dft_shift nf Hnf1 y (nf / 2)) by lia.
    unfold dft. rewrite <- Csum_scal. apply Csum_ext. intros u Hu.
    unfold y. rewrite Hsn by auto.
    replace (Cmul (tw nf (Z.of_nat k * Z.of_nat (nf / 2)))
       (Cmul (RtoC (nth (Z.to_nat (a_hop a) * h + u) xp 0%R * nth u g 0%R))
          (tw nf (- (Z.of_nat k * Z.of_nat u)))))
      with (Cmul (RtoC (nth (Z.to_nat (a_hop a) * h + u) xp 0%R * nth u g 0%R))
         (Cmul (tw nf (Z.of_nat k * Z.of_nat (nf / 2))) (tw nf (- (Z.of_nat k * Z.of_nat u)))))
      by ring.
    f_equal. rewrite <- (tw_add nf Hnf1). f_equal.
    replace (Z.of_nat (nf / 2)) with (n / 2) by lia. ring.
  - unfold dft. apply Csum_ext. intros u Hu. rewrite Hel, Hcol by auto. cbv zeta.
    rewrite bcast_nth by lia. rewrite Hsn by auto. f_equal. f_equal. lia.
Qed.

Lemma stft_spec : exists xp n_up n2 Sx dSx,
  padsignal 0%R x (a_padtype a) (Some (N + n - 1)) = Ok (xp, n_up, n / 2, n2) /\
  Z.of_nat (length xp) = N + n - 1 /\
  (forall i, (i < length x)%nat -> nth (Z.to_nat (n / 2) + i) xp 0%R = nth i x 0%R) /\
  stft x a = Ok (Sx, dSx) /\
  nrows Sx = rfft_len (Z.to_nat n) /\ Z.of_nat (ncols Sx) = (N - 1) / a_hop a + 1 /\
  nrows dSx = rfft_len (Z.to_nat n) /\ ncols dSx = ncols Sx /\
  (forall h, (h < ncols Sx)%nat -> a_hop a * Z.of_nat h + n <= Z.of_nat (length xp)) /\
  (forall k h, (h < ncols Sx)%nat -> el Sx k h = stft_val w xp k h) /\
  (forall k h, (h < ncols Sx)%nat -> el dSx k h =
     stft_val (if a_modulated a then map (fun v => (v * a_fs a)%R) (diff_window w)
               else diff_window w) xp k h).
Proof.
  assert (HN : 1 <= N) by (unfold N; destruct x; [congruence|simpl; lia]).
  destruct (stft_pad x (a_padtype a) n Hx Hn Hpad) as (xp & Exp & Hlen & Hat).
  fold N in Exp, Hlen.
  destruct (buffer_spec R 0%R xp n (a_hop a) (a_modulated a)) as
    (m & Eb & Hr & Hc & Hfit & _ & Hcol); try lia.
  exists xp, (N + n - 1), ((n - 1) / 2).
  unfold stft. fold N. rewrite Hnf. cbn [bind].
  destruct (Z.leb_spec n 0); [lia|].
  rewrite Hw. cbn [bind].
  assert (Enola : check_NOLA (a_f32 a) w (a_hop a) = Ok tt).
  { unfold check_NOLA. destruct (Z.leb_spec (a_hop a) 0); [lia|].
    destruct (a_f32 a) eqn:E32; simpl; auto.
    destruct (a_hop a >? Z.of_nat (length w)) eqn:Eh; auto. specialize (Hf32 eq_refl). lia. }
  rewrite Enola. cbn [bind]. rewrite Exp. cbn [bind]. rewrite Eb. cbn [bind].
  assert (Ebc : bcast_ok (if a_modulated a then ifftshift w else w) n = true).
  { unfold bcast_ok. destruct (a_modulated a); rewrite ?ifftshift_length;
      (destruct (Z.eqb_spec (Z.of_nat (length w)) n); [reflexivity|lia]). }
  rewrite Ebc.
  exists (stft_cols m (if a_modulated a then ifftshift w else w)),
    (stft_cols m (if a_modulated a then map (fun v => (v * a_fs a)%R) (ifftshift (diff_window w))
                  else diff_window w)).
  split; [reflexivity|]. split; [exact Hlen|]. split; [exact Hat|]. split; [reflexivity|].
  cbn [nrows ncols stft_cols].
  split; [rewrite Hr; reflexivity|].
  split; [rewrite Hc, Hlen; f_equal; f_equal; lia|].
  split; [rewrite Hr; reflexivity|]. split; [reflexivity|]. split; [exact Hfit|].
  split; intros k h Hh.
  - apply stft_cols_val; auto.
  - rewrite <- (stft_cols_val xp m _ k h Hr (Hcol h Hh) (Hfit h Hh)).
    + destruct (a_modulated a); [rewrite map_ifftshift|]; reflexivity.
    + destruct (a_modulated a); rewrite ?map_length, diff_window_length; exact Hlw.
Qed.
End Formula.

(** ** overlap-add *)
Lemma add_at_length x n v : length (add_at x n v) = length x.
Proof. apply tab_length. Qed.

Lemma overlap_add_ok column hop n : forall H a0 x,
  0 <= hop ->
  (forall i, (i < a0 + H)%nat -> length (column i) = n) ->
  (forall i, (i < a0 + H)%nat -> Z.of_nat i * hop + Z.of_nat n <= Z.of_nat (length x)) ->
  exists y, overlap_add (seq a0 H) x column hop = Ok y /\ length y = length x /\
    forall t, (t < length x)%nat -> nth t y 0%R =
      (nth t x 0 + Rsum H (fun j => let i := (a0 + j)%nat in
         if (i * Z.to_nat hop <=? t)%nat && (t <? i * Z.to_nat hop + n)%nat
         then nth (t - i * Z.to_nat hop) (column i) 0 else 0))%R.
Proof.
  induction H as [|H IH]; intros a0 x Hh Hl Hf.
  - exists x. cbn. repeat split; auto. intros; ring.
  - cbn [seq overlap_add].
    rewrite Hl by lia.
    destruct (Z.leb_spec (Z.of_nat n + Z.of_nat a0 * hop) (Z.of_nat (length x))) as [Hle|Hle].
    2:{ specialize (Hf a0 ltac:(lia)). lia. }
    destruct (IH (S a0) (add_at x (Z.to_nat (Z.of_nat a0 * hop)) (column a0)) Hh) as (y & E & Hy & Hval).
    + intros i Hi. apply Hl. lia.
    + intros i Hi. rewrite add_at_length. apply Hf. lia.
    + exists y. split; [exact E|]. rewrite add_at_length in Hy, Hval. split; [exact Hy|].
      intros t Ht. rewrite Hval by exact Ht. rewrite Rsum_first.
      unfold add_at. rewrite nth_tab by exact Ht. cbv zeta.
      replace (a0 + 0)%nat with a0 by lia. rewrite Hl by lia.
      replace (Z.to_nat (Z.of_nat a0 * hop)) with (a0 * Z.to_nat hop)%nat by nia.
      rewrite (Rsum_ext H _ (fun j => if ((a0 + S j) * Z.to_nat hop <=? t)%nat &&
         (t <? (a0 + S j) * Z.to_nat hop + n)%nat
         then nth (t - (a0 + S j) * Z.to_nat hop) (column (a0 + S j)%nat) 0 else 0)%R).
      2:{ intros j Hj. replace (S a0 + j)%nat with (a0 + S j)%nat by lia. reflexivity. }
      destruct (_ && _); ring.
Qed.

(** summed window powers at sample [t] of the padded axis: the specification side *)
Definition wsum (w : list R) (hop H : nat) (p : nat) (t : nat) : R :=
  Rsum H (fun h => if (h * hop <=? t)%nat && (t <? h * hop + length w)%nat
                   then (nth (t - h * hop) w 0 ^ p)%R else 0%R).

Lemma window_norm_ok w hop n N e :
  1 <= hop -> 1 <= n -> 1 <= N -> Z.of_nat (length w) = n ->
  exists wn, window_norm w hop n N e = Ok wn /\
    Z.of_nat (length wn) = N + n - 1 /\
    forall t, (t < length wn)%nat -> nth t wn 0%R =
      wsum w (Z.to_nat hop) (Z.to_nat ((N - 1) / hop + 1)) (e + 1) t.
Proof.
  intros Hh Hn HN Hw. unfold window_norm.
  destruct (Z.ltb_spec (N + n - 1) 0); [lia|]. destruct (Z.eqb_spec hop 0); [lia|].
  replace (N + n - 1 - n) with (N - 1) by lia.
  assert (Hq : 0 <= (N - 1) / hop) by (apply Z.div_pos; lia).
  assert (Hq2 : hop * ((N - 1) / hop) <= N - 1) by (apply Z.mul_div_le; lia).
  set (q := (N - 1) / hop) in *.
  destruct (overlap_add_ok (fun _ => map (fun v => (v ^ (e + 1))%R) w) hop (length w)
              (Z.to_nat (q + 1)) 0 (repeat 0%R (Z.to_nat (N + n - 1)))) as (y & E & Hy & Hval).
  - lia.
  - intros i Hi. apply map_length.
  - intros i Hi. rewrite repeat_length. nia.
  - rewrite repeat_length in Hy, Hval.
    exists y. split; [exact E|]. split; [lia|]. intros t Ht.
    rewrite Hval by lia. unfold wsum. rewrite nth_repeat, Rplus_0_l.
    apply Rsum_ext. intros h Hh2. cbv zeta. cbn [Nat.add].
    destruct (Nat.leb_spec (h * Z.to_nat hop) t), (Nat.ltb_spec t (h * Z.to_nat hop + length w));
      cbn [andb]; try reflexivity.
    rewrite (nth_indep _ 0%R (0 ^ (e + 1))%R) by (rewrite map_length; lia).
    exact (map_nth (fun v => (v ^ (e + 1))%R) w 0%R _).
Qed.

(** ** inversion *)
Lemma pyslice_neg_end {A} (l : list A) a b : 0 <= a -> 0 < b -> a + b <= Z.of_nat (length l) ->
  pyslice l a (- b) = pyslice l a (Z.of_nat (length l) - b).
Proof.
  intros Ha Hb Hl. unfold pyslice, norm_bound.
  destruct (Z.ltb_spec a 0); [lia|]. destruct (Z.ltb_spec (- b) 0); [|lia].
  destruct (Z.ltb_spec (Z.of_nat (length l) - b) 0); [lia|].
  do 2 f_equal. lia.
Qed.

Lemma Rltb_true a b : (a < b)%R -> Rltb a b = true.
Proof. intros; unfold Rltb; destruct (Rlt_dec a b); auto; contradiction. Qed.
Lemma Rltb_false a b : (b <= a)%R -> Rltb a b = false.
Proof. intros; unfold Rltb; destruct (Rlt_dec a b); auto; lra. Qed.

Lemma normalise_length th x wn : length (normalise th x wn) = length x.
Proof. unfold normalise. destruct (existsb _ _); apply tab_length. Qed.

Lemma normalise_nth th x wn t : (t < length x)%nat -> (th < nth t wn 0)%R ->
  nth t (normalise th x wn) 0%R = (nth t x 0 / nth t wn 0)%R.
Proof.
  intros Ht Hw. unfold normalise. destruct (existsb _ _); rewrite nth_tab by exact Ht; auto.
  rewrite Rltb_true by exact Hw. reflexivity.
Qed.

(** General inverse: columns that are windowed slices of [xp]. *)
Section Inverse.
Variables (xp : list R) (Sx : mat C) (wa : window_arg) (w : list R).
Variables (n N hop : Z) (wl nf No : option Z) (modulated f32 : bool) (e : nat) (tiny : R).
Hypothesis Hn : 3 <= n.
Hypothesis HN : 1 <= N.
Hypothesis Hhop : 1 <= hop.
Hypothesis Hw : get_window wa (or_default wl n) n = Ok w.
Hypothesis Hlw : Z.of_nat (length w) = n.
Hypothesis Hf32 : f32 = true -> hop <= n.
Hypothesis Hrows : nrows Sx = rfft_len (Z.to_nat n).
Hypothesis Hcols : Z.of_nat (ncols Sx) = (N - 1) / hop + 1.
Hypothesis Hnf : or_default nf ((Z.of_nat (nrows Sx) - 1) * 2) = n.
Hypothesis HNo : or_default No (hop * Z.of_nat (ncols Sx)) = N.
Hypothesis HSx : forall k h, (h < ncols Sx)%nat -> (k < nrows Sx)%nat -> el Sx k h =
  Csum (Z.to_nat n) (fun u =>
    Cmul (RtoC (nth (Z.to_nat hop * h + u) xp 0 * nth u w 0)%R)
         (tw (Z.to_nat n) (- (Z.of_nat k * (Z.of_nat u - (if modulated then n / 2 else 0)))))).

Let m := Z.to_nat n.

Lemma shift_spectrum h k : (h < ncols Sx)%nat -> (k < rfft_len m)%nat ->
  spec_col Sx h k =
  let y := fun u => (nth (Z.to_nat hop * h + u) xp 0 * nth u w 0)%R in
  rfft m (if modulated then fun r => y ((r + m / 2) mod m)%nat else y) k.
Proof.
  intros Hh Hk. unfold spec_col. rewrite Hrows. fold m.
  destruct (Nat.ltb_spec k (rfft_len m)); [|lia].
  rewrite HSx by (auto; rewrite Hrows; fold m; lia). fold m.
  assert (Hm : (1 <= m)%nat) by (unfold m; lia).
  cbv zeta. unfold rfft. destruct modulated.
  - rewrite (dft_shift m Hm (fun u => RtoC (nth (Z.to_nat hop * h + u) xp 0 * nth u w 0)%R) (m / 2))
      by lia.
    unfold dft. rewrite <- Csum_scal. apply Csum_ext. intros u Hu.
    replace (Cmul (tw m (Z.of_nat k * Z.of_nat (m / 2)))
       (Cmul (RtoC (nth (Z.to_nat hop * h + u) xp 0%R * nth u w 0%R))
          (tw m (- (Z.of_nat k * Z.of_nat u)))))
      with (Cmul (RtoC (nth (Z.to_nat hop * h + u) xp 0%R * nth u w 0%R))
         (Cmul (tw m (Z.of_nat k * Z.of_nat (m / 2))) (tw m (- (Z.of_nat k * Z.of_nat u)))))
      by ring.
    f_equal. rewrite <- (tw_add m Hm). f_equal.
    replace (Z.of_nat (m / 2)) with (n / 2) by (unfold m; lia). ring.
  - unfold dft. apply Csum_ext. intros u Hu. f_equal. f_equal. lia.
Qed.

(** the recovered buffer column is the windowed slice *)
Lemma column_recovered h r : (h < ncols Sx)%nat -> (r < m)%nat ->
  nth r (let c := tab m (irfft m (spec_col Sx h)) in if modulated then fftshift c else c) 0%R =
  (nth (Z.to_nat hop * h + r) xp 0 * nth r w 0)%R.
Proof.
  intros Hh Hr. cbv zeta.
  assert (Hm : (1 <= m)%nat) by (unfold m; lia).
  set (y := fun u => (nth (Z.to_nat hop * h + u) xp 0 * nth u w 0)%R).
  assert (E : tab m (irfft m (spec_col Sx h)) =
              if modulated then ifftshift (tab m y) else tab m y).
  { apply list_eq_nth with (d := 0%R).
    - destruct modulated; rewrite ?ifftshift_length, !tab_length; reflexivity.
    - rewrite tab_length. intros i Hi. rewrite nth_tab by exact Hi.
      rewrite (irfft_ext m Hm _ _ i (fun k Hk => shift_spectrum h k Hh Hk)). cbv zeta.
      rewrite irfft_rfft by auto. fold y. destruct modulated.
      + rewrite nth_ifftshift by (rewrite tab_length; exact Hi). rewrite tab_length, nth_tab.
        * reflexivity.
        * apply Nat.mod_upper_bound. lia.
      + rewrite nth_tab by exact Hi. reflexivity. }
  rewrite E. destruct modulated; rewrite ?fftshift_ifftshift, nth_tab by exact Hr; reflexivity.
Qed.

(** sample by sample: recovered exactly where the window powers sum to more than [tiny],
    left multiplied by that sum where they sum to less *)
Theorem istft_pointwise :
  exists y, istft tiny Sx wa nf wl hop No modulated e f32 = Ok y /\
    Z.of_nat (length y) = N /\
    forall i, (i < Z.to_nat N)%nat ->
      let t := (Z.to_nat (n / 2) + i)%nat in
      let s := wsum w (Z.to_nat hop) (ncols Sx) (e + 1) t in
      ((0 <= tiny < s)%R -> nth i y 0%R = nth t xp 0%R) /\
      ((s < tiny)%R -> nth i y 0%R = (nth t xp 0 * s)%R).
Proof.
  unfold istft. rewrite Hnf, HNo.
  destruct (Z.leb_spec n 0); [lia|]. rewrite Hw. cbn [bind].
  assert (Enola : check_NOLA f32 w hop = Ok tt).
  { unfold check_NOLA. destruct (Z.leb_spec hop 0); [lia|].
    destruct f32 eqn:E32; simpl; auto.
    destruct (hop >? Z.of_nat (length w)) eqn:Eh; auto. specialize (Hf32 eq_refl). lia. }
  rewrite Enola. cbn [bind]. fold m.
  assert (Hq2 : hop * ((N - 1) / hop) <= N - 1) by (apply Z.mul_div_le; lia).
  assert (Hq0 : 0 <= (N - 1) / hop) by (apply Z.div_pos; lia).
  set (q := (N - 1) / hop) in *.
  assert (HH : ncols Sx = Z.to_nat (q + 1)) by lia.
  set (wfac := fun r => match e with O => 1%R | _ => (nth r w 0 ^ e)%R end).
  assert (Hwfac : forall r, (nth r w 0 * wfac r = nth r w 0 ^ (e + 1))%R).
  { intros r. unfold wfac. rewrite Nat.add_1_r. destruct e; cbn; ring. }
  unfold unbuffer. cbn [ncols nrows el].
  destruct (Z.eqb_spec (Z.of_nat (length w)) n); [|contradiction]. cbn [negb].
  destruct (Z.ltb_spec (N + n - 1) 0); [lia|].
  destruct (overlap_add_ok (fun i => tab m (fun r =>
      (nth r (if modulated then fftshift (tab m (irfft m (spec_col Sx i)))
              else tab m (irfft m (spec_col Sx i))) 0 * wfac r)%R)) hop m (ncols Sx) 0
      (repeat 0%R (Z.to_nat (N + n - 1)))) as (y & Ey & Hy & Hval).
  { lia. }
  { intros; apply tab_length. }
  { intros i Hi. rewrite repeat_length. unfold m. nia. }
  rewrite repeat_length in Hy, Hval.
  unfold wfac in Ey. rewrite Ey. cbn [bind].
  destruct (window_norm_ok w hop n N e) as (wn & Ewn & Hlwn & Hwn); try lia.
  rewrite Ewn. cbn [bind]. eexists; split; [reflexivity|].
  rewrite pyslice_neg_end by (rewrite ?normalise_length; lia).
  rewrite normalise_length, Hy.
  replace (Z.of_nat (Z.to_nat (N + n - 1)) - (n - 1) / 2) with (n / 2 + N) by lia.
  split; [rewrite pyslice_length; rewrite ?normalise_length; lia|].
  intros i Hi. set (t := (Z.to_nat (n / 2) + i)%nat).
  set (s := wsum w (Z.to_nat hop) (ncols Sx) (e + 1) t).
  rewrite pyslice_nth by (rewrite ?normalise_length; lia). fold t.
  assert (Ht : (t < Z.to_nat (N + n - 1))%nat) by (unfold t; lia).
  assert (Hwt : nth t wn 0%R = s).
  { rewrite Hwn by lia. fold q. unfold s. rewrite HH. reflexivity. }
  assert (Es : nth t y 0%R = (nth t xp 0 * s)%R).
  { rewrite Hval by exact Ht. rewrite nth_repeat, Rplus_0_l. unfold s, wsum.
    rewrite <- Rsum_scal. apply Rsum_ext. intros h Hh. cbv zeta. cbn [Nat.add].
    replace (length w) with m by (unfold m; lia).
    destruct (Nat.leb_spec (h * Z.to_nat hop) t), (Nat.ltb_spec t (h * Z.to_nat hop + m));
      cbn [andb]; try ring.
    rewrite nth_tab by lia.
    pose proof (column_recovered h (t - h * Z.to_nat hop) Hh ltac:(lia)) as Hc.
    cbv zeta in Hc. rewrite Hc.
    rewrite <- Hwfac. replace (Z.to_nat hop * h + (t - h * Z.to_nat hop))%nat with t by lia.
    ring. }
  split; intros Hs.
  - rewrite normalise_nth by (rewrite ?Hwt; try lia; apply Hs).
    rewrite Es, Hwt. field. lra.
  - unfold normalise.
    assert (Eex : existsb (fun v => Rltb v tiny) wn = true).
    { apply existsb_exists. exists (nth t wn 0%R). split; [apply nth_In; lia|].
      rewrite Hwt. apply Rltb_true, Hs. }
    rewrite Eex, nth_tab by lia. rewrite Hwt, Rltb_false by lra. exact Es.
Qed.
End Inverse.

(** ** forward then inverse *)
Section RoundTrip.
Variables (x : list R) (a : stft_args) (n : Z) (w : list R).
Let N := Z.of_nat (length x).
Variables (wa : window_arg) (wl nf No : option Z) (e : nat) (tiny : R) (f32 : bool).
Hypothesis Hx : x <> [].
Hypothesis Hn : 3 <= n.
Hypothesis Hhop : 1 <= a_hop a.
Hypothesis Hnf : stft_n_fft a N = Ok n.
Hypothesis Hw : get_window (a_window a) (stft_win_len a n) n = Ok w.
Hypothesis Hlw : Z.of_nat (length w) = n.
Hypothesis Hf32 : a_f32 a = true \/ f32 = true -> a_hop a <= n.
Hypothesis Hpad : pad_usable (a_padtype a) N n.
Hypothesis Hw' : get_window wa (or_default wl n) n = Ok w.
Hypothesis Hnf' : nf = Some n \/ (Z.even n = true /\ (nf = None \/ nf = Some 0)).
Let H := Z.to_nat ((N - 1) / a_hop a + 1).

Lemma rows_n_fft : or_default nf ((Z.of_nat (rfft_len (Z.to_nat n)) - 1) * 2) = n.
Proof.
  assert (E : Z.even n = true -> (Z.of_nat (rfft_len (Z.to_nat n)) - 1) * 2 = n).
  { intros He. apply Z.even_spec in He. destruct He as [k Hk]. unfold rfft_len. lia. }
  destruct Hnf' as [->|[He [-> | ->]]]; cbn [or_default].
  - destruct (Z.eqb_spec n 0); lia.
  - auto.
  - rewrite Z.eqb_refl. auto.
Qed.

(** [N'] = the length [istft] works with: given, or hop_len*n_hops *)
Lemma roundtrip_any N' : or_default No (a_hop a * Z.of_nat H) = N' ->
  (N' - 1) / a_hop a = (N - 1) / a_hop a -> N <= N' ->
  exists Sx dSx y, stft x a = Ok (Sx, dSx) /\
    istft tiny Sx wa nf wl (a_hop a) No (a_modulated a) e f32 = Ok y /\
    Z.of_nat (length y) = N' /\
    forall i, (i < length x)%nat ->
      let s := wsum w (Z.to_nat (a_hop a)) H (e + 1) (Z.to_nat (n / 2) + i) in
      ((0 <= tiny < s)%R -> nth i y 0%R = nth i x 0%R) /\
      ((s < tiny)%R -> nth i y 0%R = (nth i x 0 * s)%R).
Proof.
  intros HNo Hq HNN.
  assert (HN : 1 <= N) by (unfold N; destruct x; [congruence|simpl; lia]).
  destruct (stft_spec x a n w Hx ltac:(lia) Hhop Hnf Hw Hlw (fun h => Hf32 (or_introl h)) Hpad)
    as (xp & n_up & n2 & Sx & dSx & Exp & Hlen & Hat & Est & Hr & Hc & _ & _ & Hfit & HS & _).
  fold N in Exp, Hlen, Hc.
  assert (Hcn : ncols Sx = H) by (unfold H; lia).
  destruct (istft_pointwise xp Sx wa w n N' (a_hop a) wl nf No (a_modulated a) f32 e tiny)
    as (y & Ey & Hly & Hpt); try assumption.
  - lia.
  - intros Hf; apply Hf32; right; exact Hf.
  - rewrite Hq. exact Hc.
  - rewrite Hr. apply rows_n_fft.
  - rewrite Hcn. exact HNo.
  - intros k h Hh _. rewrite HS by exact Hh. unfold stft_val, phase_ref.
    reflexivity.
  - exists Sx, dSx, y. split; [exact Est|]. split; [exact Ey|]. split; [exact Hly|].
    intros i Hi s. specialize (Hpt i ltac:(lia)). cbv zeta in Hpt.
    rewrite Hcn, Hat in Hpt by exact Hi. exact Hpt.
Qed.

Theorem roundtrip : No = Some N ->
  (forall i, (i < length x)%nat ->
     (0 <= tiny < wsum w (Z.to_nat (a_hop a)) H (e + 1) (Z.to_nat (n / 2) + i))%R) ->
  exists Sx dSx, stft x a = Ok (Sx, dSx) /\
    istft tiny Sx wa nf wl (a_hop a) No (a_modulated a) e f32 = Ok x.
Proof.
  intros HNo Hpos.
  assert (HN : 1 <= N) by (unfold N; destruct x; [congruence|simpl; lia]).
  destruct (roundtrip_any N) as (Sx & dSx & y & Es & Ey & Hl & Hy).
  - rewrite HNo. cbn. destruct (Z.eqb_spec N 0); lia.
  - reflexivity.
  - lia.
  - exists Sx, dSx. split; [exact Es|]. rewrite Ey. f_equal.
    apply list_eq_nth with (d := 0%R); [lia|]. intros i Hi. apply Hy; [lia|]. apply Hpos. lia.
Qed.

(** [N] omitted: [hop_len*n_hops] samples, the first [len(x)] of which are [x] *)
Theorem roundtrip_default : No = None \/ No = Some 0 ->
  (forall i, (i < length x)%nat ->
     (0 <= tiny < wsum w (Z.to_nat (a_hop a)) H (e + 1) (Z.to_nat (n / 2) + i))%R) ->
  exists Sx dSx y, stft x a = Ok (Sx, dSx) /\
    istft tiny Sx wa nf wl (a_hop a) No (a_modulated a) e f32 = Ok y /\
    Z.of_nat (length y) = a_hop a * Z.of_nat (ncols Sx) /\ firstn (length x) y = x.
Proof.
  intros HNo Hpos.
  assert (HN : 1 <= N) by (unfold N; destruct x; [congruence|simpl; lia]).
  assert (Hd0 : 0 <= (N - 1) / a_hop a) by (apply Z.div_pos; lia).
  assert (Hd1 : a_hop a * ((N - 1) / a_hop a) <= N - 1) by (apply Z.mul_div_le; lia).
  assert (Hd2 : N - 1 < a_hop a * ((N - 1) / a_hop a) + a_hop a).
  { pose proof (Z.mod_pos_bound (N - 1) (a_hop a) ltac:(lia)).
    pose proof (Z.div_mod (N - 1) (a_hop a) ltac:(lia)). lia. }
  set (q := (N - 1) / a_hop a) in *.
  assert (EH : Z.of_nat H = q + 1) by (unfold H; lia).
  destruct (roundtrip_any (a_hop a * Z.of_nat H)) as (Sx & dSx & y & Es & Ey & Hl & Hy).
  - destruct HNo as [-> | ->]; reflexivity.
  - fold q. rewrite EH. symmetry. apply Z.div_unique with (r := a_hop a - 1); nia.
  - nia.
  - exists Sx, dSx, y. split; [exact Es|]. split; [exact Ey|].
    destruct (stft_spec x a n w Hx ltac:(lia) Hhop Hnf Hw Hlw (fun h => Hf32 (or_introl h)) Hpad)
      as (_ & _ & _ & Sx' & dSx' & _ & _ & _ & Est & _ & Hc & _).
    rewrite Es in Est. injection Est as <- <-. fold N q in Hc.
    split; [nia|].
    apply list_eq_nth with (d := 0%R); [rewrite firstn_length; nia|]. intros i Hi.
    rewrite firstn_length in Hi. rewrite nth_firstn_lt by lia. apply Hy; [lia|].
    apply Hpos. lia.
Qed.

(** A window that is large enough on one hop to the right of its centre is enough. *)
Lemma coverage : (0 <= tiny)%R -> n / 2 + a_hop a <= n ->
  (forall r, (r < length w)%nat -> (0 <= nth r w 0 ^ (e + 1))%R) ->
  (forall r, (Z.to_nat (n / 2) <= r < Z.to_nat (n / 2 + a_hop a))%nat ->
     (tiny < nth r w 0 ^ (e + 1))%R) ->
  forall i, (i < length x)%nat ->
     (0 <= tiny < wsum w (Z.to_nat (a_hop a)) H (e + 1) (Z.to_nat (n / 2) + i))%R.
Proof.
  clear Hnf Hw Hf32 Hpad Hw' Hnf'.
  intros Ht Hh Hnn Hc i Hi. split; [exact Ht|].
  assert (HN : 1 <= N) by (unfold N; destruct x; [congruence|simpl; lia]).
  set (hp := Z.to_nat (a_hop a)). assert (Hhp : (1 <= hp)%nat) by (unfold hp; lia).
  set (h := (i / hp)%nat).
  assert (Hi1 : (h * hp <= i < h * hp + hp)%nat).
  { pose proof (Nat.div_mod i hp ltac:(lia)). pose proof (Nat.mod_upper_bound i hp ltac:(lia)).
    unfold h. nia. }
  assert (HhH : (h < H)%nat).
  { unfold H. assert (Z.of_nat h <= (N - 1) / a_hop a); [|lia].
    apply Z.div_le_lower_bound; unfold N; nia. }
  unfold wsum.
  eapply Rlt_le_trans; [|apply Rsum_pos_term with (k := h); [exact HhH|]].
  - cbv beta.
    destruct (Nat.leb_spec (h * hp) (Z.to_nat (n / 2) + i)); [|lia].
    destruct (Nat.ltb_spec (Z.to_nat (n / 2) + i) (h * hp + length w)); [|nia].
    cbn [andb]. apply Hc. nia.
  - intros j Hj. cbv beta.
    destruct (Nat.leb_spec (j * hp) (Z.to_nat (n / 2) + i)),
      (Nat.ltb_spec (Z.to_nat (n / 2) + i) (j * hp + length w)); cbn [andb]; try lra.
    apply Hnn. lia.
Qed.
End RoundTrip.

(** ** output length of istft for an arbitrary spectrum *)
Lemma overlap_add_len column hop : forall hs x y,
  overlap_add hs x column hop = Ok y -> length y = length x.
Proof.
  induction hs as [|i hs IH]; intros x y E; cbn in E; [congruence|].
  destruct (_ <=? _); [|discriminate]. apply IH in E. rewrite add_at_length in E. exact E.
Qed.

Lemma istft_length tiny Sx wa n wl hop N modulated e f32 y :
  3 <= n -> 1 <= N ->
  istft tiny Sx wa (Some n) wl hop (Some N) modulated e f32 = Ok y ->
  Z.of_nat (length y) = N.
Proof.
  intros Hn HN E. unfold istft in E.
  assert (E1 : or_default (Some n) ((Z.of_nat (nrows Sx) - 1) * 2) = n)
    by (cbn; destruct (Z.eqb_spec n 0); lia).
  assert (E2 : or_default (Some N) (hop * Z.of_nat (ncols Sx)) = N)
    by (cbn; destruct (Z.eqb_spec N 0); lia).
  rewrite E1, E2 in E. destruct (Z.leb_spec n 0); [lia|].
  destruct (get_window _ _ _) as [w|]; [|discriminate]. cbn [bind] in E.
  destruct (check_NOLA _ _ _); [|discriminate]. cbn [bind] in E.
  destruct (unbuffer _ _ _ _ _ _) as [x|] eqn:Eu; [|discriminate]. cbn [bind] in E.
  destruct (window_norm _ _ _ _ _) as [wn|]; [|discriminate]. cbn [bind] in E.
  injection E as <-.
  unfold unbuffer in Eu. destruct (negb _); [discriminate|].
  destruct (N + n - 1 <? 0); [discriminate|]. apply overlap_add_len in Eu.
  rewrite repeat_length in Eu.
  rewrite pyslice_neg_end by (rewrite ?normalise_length; lia).
  rewrite pyslice_length; rewrite ?normalise_length; lia.
Qed.

Lemma istft_small tiny Sx wa n wl hop N modulated e f32 y :
  1 <= n <= 2 -> 1 <= N ->
  istft tiny Sx wa (Some n) wl hop (Some N) modulated e f32 = Ok y -> y = [].
Proof.
  intros Hn HN E. unfold istft in E.
  assert (E1 : or_default (Some n) ((Z.of_nat (nrows Sx) - 1) * 2) = n)
    by (cbn; destruct (Z.eqb_spec n 0); lia).
  rewrite E1 in E. destruct (Z.leb_spec n 0); [lia|].
  destruct (get_window _ _ _) as [w|]; [|discriminate]. cbn [bind] in E.
  destruct (check_NOLA _ _ _); [|discriminate]. cbn [bind] in E.
  destruct (unbuffer _ _ _ _ _ _) as [x|] eqn:Eu; [|discriminate]. cbn [bind] in E.
  destruct (window_norm _ _ _ _ _) as [wn|]; [|discriminate]. cbn [bind] in E.
  injection E as <-. replace ((n - 1) / 2) with 0 by lia.
  set (z := normalise _ _ _). unfold pyslice, norm_bound. cbn.
  destruct (Z.ltb_spec (n / 2) 0); [lia|].
  replace (Z.to_nat (Z.min 0 (Z.of_nat (length z)) - Z.min (n / 2) (Z.of_nat (length z)))) with 0%nat by lia.
  reflexivity.
Qed.

(** ** default N *)
Lemma default_N N hop : 1 <= N -> 1 <= hop ->
  let hops M := (M - 1) / hop + 1 in
  let D := hop * hops N in
  hops D = hops N /\ (forall M, 1 <= M -> hops M = hops N -> M <= D) /\ D - hop < N <= D.
Proof.
  intros HN Hh hops D.
  assert (Hd0 : 0 <= (N - 1) / hop) by (apply Z.div_pos; lia).
  assert (B : forall M, 1 <= M -> hop * ((M - 1) / hop) <= M - 1 < hop * ((M - 1) / hop) + hop).
  { intros M HM. pose proof (Z.mod_pos_bound (M - 1) hop ltac:(lia)).
    pose proof (Z.div_mod (M - 1) hop ltac:(lia)). lia. }
  pose proof (B N HN) as BN. unfold D, hops. set (q := (N - 1) / hop) in *.
  split; [|split].
  - f_equal. symmetry. apply Z.div_unique with (r := hop - 1); nia.
  - intros M HM E. specialize (B M HM). nia.
  - nia.
Qed.
