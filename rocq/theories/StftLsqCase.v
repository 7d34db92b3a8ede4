(** [istft] is linear; other paddings and the nearest signal; a worked case. *)
From Coq Require Import Reals Lra ZifyBool ZifyNat.
From Verif Require Import Py Cplx CplxProofs Padding Buffer BufferProofs Freqs Stft StftProofs StftMap StftEnergy StftInverse StftLsq.
Local Open Scope R_scope.
Ltac Zify.zify_post_hook ::= Z.div_mod_to_equations.

(** ** linear *)
Definition mlin (c : R) (A : mat C) (d : R) (B : mat C) : mat C :=
  Mat (nrows A) (ncols A) (fun k h => Cadd (Cmul (RtoC c) (el A k h)) (Cmul (RtoC d) (el B k h))).
Lemma irfft_lin n c X d Y m : irfft n (fun k => Cadd (Cmul (RtoC c) (X k)) (Cmul (RtoC d) (Y k))) m = c * irfft n X m + d * irfft n Y m.
Proof.
  unfold irfft, idft.
  rewrite (Csum_ext n _ (fun k => Cadd (Cmul (RtoC c) (Cmul (hermit n X k) (tw n (Z.of_nat k * Z.of_nat m)))) (Cmul (RtoC d) (Cmul (hermit n Y k) (tw n (Z.of_nat k * Z.of_nat m)))))).
  - rewrite Csum_plus, !Csum_scal. destruct (Csum n _) as [p q], (Csum n _) as [p' q']. unfold Re, Cmul, Cadd, RtoC. cbn [fst snd]. ring.
  - intros k _. unfold hermit. destruct (k =? 0)%nat; [|destruct (2 * k =? n)%nat; [|destruct (2 * k <? n)%nat]];
    apply C_eq; unfold Cmul, Cadd, Cconj, RtoC, Re; cbn [fst snd]; ring.
Qed.
Lemma frame_lin mo n c A d B h r : (1 <= n)%nat -> nrows B = nrows A -> (r < n)%nat ->
  nth r (frame mo n (mlin c A d B) h) 0 = c * nth r (frame mo n A h) 0 + d * nth r (frame mo n B h) 0.
Proof.
  intros Hn HB Hr. assert (E : forall m, (m < n)%nat -> irfft n (spec_col (mlin c A d B) h) m = c * irfft n (spec_col A h) m + d * irfft n (spec_col B h) m).
  { intros m Hm. rewrite <- irfft_lin. apply irfft_ext; [exact Hn|]. intros k _. unfold spec_col, mlin. cbn [nrows el]. rewrite HB. destruct (k <? nrows A)%nat; [reflexivity|].
    apply C_eq; unfold Cmul, Cadd, RtoC, C0; cbn [fst snd]; ring. }
  unfold frame. destruct mo; [|rewrite !nth_tab by exact Hr; apply E, Hr].
  assert (L : ((r + (n - n / 2)) mod n < n)%nat) by (apply Nat.mod_upper_bound; lia).
  rewrite !nth_fftshift by (rewrite tab_length; exact Hr). rewrite !tab_length, !nth_tab by exact L. apply E, L.
Qed.
Theorem istft_linear Sx Tx c d wa w n N hop wl nf No modulated f32 e tiny : istft_ready Sx wa w n N hop wl nf No f32 ->
  nrows Tx = nrows Sx -> ncols Tx = ncols Sx -> 0 <= tiny ->
  (forall i, (i < Z.to_nat N)%nat -> wsum w (Z.to_nat hop) (ncols Sx) (e + 1) (Z.to_nat (n / 2) + i) <> tiny) ->
  exists y z u, istft tiny Sx wa nf wl hop No modulated e f32 = Ok y /\ istft tiny Tx wa nf wl hop No modulated e f32 = Ok z /\
    istft tiny (mlin c Sx d Tx) wa nf wl hop No modulated e f32 = Ok u /\
    Z.of_nat (length y) = N /\ Z.of_nat (length z) = N /\ Z.of_nat (length u) = N /\
    forall i, (i < Z.to_nat N)%nat -> nth i u 0 = c * nth i y 0 + d * nth i z 0.
Proof.
  intros R Hr Hc Ht Hs.
  assert (RT : istft_ready Tx wa w n N hop wl nf No f32) by (unfold istft_ready; rewrite Hr, Hc; exact R).
  assert (RU : istft_ready (mlin c Sx d Tx) wa w n N hop wl nf No f32) by exact R.
  destruct (istft_any _ _ _ _ _ _ _ _ _ modulated _ e tiny R) as (y & Ey & Ly & Vy). destruct (istft_any _ _ _ _ _ _ _ _ _ modulated _ e tiny RT) as (z & Ez & Lz & Vz).
  destruct (istft_any _ _ _ _ _ _ _ _ _ modulated _ e tiny RU) as (u & Eu & Lu & Vu). exists y, z, u. repeat (split; [assumption|]).
  intros i Hi. specialize (Vy i Hi). specialize (Vz i Hi). specialize (Vu i Hi). specialize (Hs i Hi). cbv zeta in *. cbn [mlin ncols] in Vu. rewrite Hc in Vz.
  assert (Hn : (1 <= Z.to_nat n)%nat) by (destruct R; lia).
  assert (E : over (Z.to_nat hop) (Z.to_nat n) (ncols Sx) (Z.to_nat (n / 2) + i) (fun h r => nth r (frame modulated (Z.to_nat n) (mlin c Sx d Tx) h) 0 * nth r w 0 ^ e) =
    c * over (Z.to_nat hop) (Z.to_nat n) (ncols Sx) (Z.to_nat (n / 2) + i) (fun h r => nth r (frame modulated (Z.to_nat n) Sx h) 0 * nth r w 0 ^ e) +
    d * over (Z.to_nat hop) (Z.to_nat n) (ncols Sx) (Z.to_nat (n / 2) + i) (fun h r => nth r (frame modulated (Z.to_nat n) Tx h) 0 * nth r w 0 ^ e)).
  { rewrite !over_scal, over_plus. apply over_ext. intros h r _ Hr'. rewrite frame_lin by (lia || assumption). ring. }
  unfold mlin in E, Vu. destruct (Rlt_le_dec tiny (wsum w (Z.to_nat hop) (ncols Sx) (e + 1) (Z.to_nat (n / 2) + i))) as [L|L].
  - rewrite (proj1 Vu (conj Ht L)), (proj1 Vy (conj Ht L)), (proj1 Vz (conj Ht L)), E. field. lra.
  - assert (L' : wsum w (Z.to_nat hop) (ncols Sx) (e + 1) (Z.to_nat (n / 2) + i) < tiny) by lra. rewrite (proj2 Vu L'), (proj2 Vy L'), (proj2 Vz L'), E. ring.
Qed.

(** ** arrays made of slices *)
Definition of_slices (mo : bool) (n H : nat) (sl : nat -> list R) : mat C :=
  Mat (n / 2 + 1) H (fun k h => rfft n (fun m => nth m (if mo then ifftshift (sl h) else sl h) 0) k).
Lemma frame_of_slices mo n H sl h : (1 <= n)%nat -> length (sl h) = n -> frame mo n (of_slices mo n H sl) h = sl h.
Proof.
  intros Hn L. unfold frame. assert (E : tab n (irfft n (spec_col (of_slices mo n H sl) h)) = if mo then ifftshift (sl h) else sl h).
  { apply list_eq_nth with (d := 0); [rewrite tab_length; destruct mo; rewrite ?ifftshift_length; lia|]. rewrite tab_length. intros i Hi. rewrite nth_tab by exact Hi.
    rewrite (irfft_ext n Hn _ (rfft n (fun m => nth m (if mo then ifftshift (sl h) else sl h) 0))).
    - rewrite irfft_rfft by assumption. reflexivity.
    - intros k Hk. unfold rfft_len in Hk. unfold spec_col, of_slices. cbn [nrows el]. destruct (Nat.ltb_spec k (n / 2 + 1)); [reflexivity|lia]. }
  rewrite E. destruct mo; [apply fftshift_ifftshift|reflexivity].
Qed.
Lemma edge_of_slices mo n H sl h : (1 <= n)%nat -> edge n (spec_col (of_slices mo n H sl) h) = 0.
Proof.
  intros Hn. apply (edge_rfft n Hn (fun m => nth m (if mo then ifftshift (sl h) else sl h) 0)). intros k Hk. unfold spec_col, of_slices. cbn [nrows el].
  destruct (Nat.ltb_spec k (n / 2 + 1)); [reflexivity|lia].
Qed.

(** ** any padding *)
Lemma misfit_energy_any x a n w Tx : usable x a n w -> (3 <= n)%nat -> nrows Tx = (n / 2 + 1)%nat -> Z.of_nat (ncols Tx) = ((Z.of_nat (length x) - 1) / a_hop a + 1)%Z ->
  exists xp Sx dSx, padded x a n xp /\ stft x a = Ok (Sx, dSx) /\
    energy n (mdiff Sx Tx) = INR n * misfit (a_modulated a) w (Z.to_nat (a_hop a)) Tx (fun t => nth t xp 0) + Rsum (ncols Tx) (fun h => edge n (spec_col Tx h)).
Proof.
  intros U Hn HR HC. destruct (stft_frames x a n w U Hn) as (xp & Sx & dSx & P & E & Rw & Cc & Fr & Im0). exists xp, Sx, dSx. split; [exact P|]. split; [exact E|].
  pose proof U as (Hx & _ & Hhop & _ & _ & Hlw & _). assert (HcT : ncols Sx = ncols Tx) by lia.
  rewrite (energy_split (a_modulated a)) by (cbn [mdiff nrows]; lia). unfold misfit. rewrite Hlw. cbn [mdiff ncols]. rewrite HcT. f_equal.
  - f_equal. apply Rsum_ext. intros h Hh. apply Rsum_ext. intros r Hr. f_equal. pose proof (frame_diff (a_modulated a) n Sx Tx h r ltac:(lia) ltac:(lia) Hr) as Q. etransitivity; [|etransitivity; [exact Q|]].
    + unfold mdiff, frame, spec_col. cbn [nrows el]. reflexivity.
    + rewrite Fr by lia. reflexivity.
  - apply Rsum_ext. intros h Hh. apply Rsum_ext. intros k Hk. destruct (Nat.eqb_spec k 0), (Nat.eqb_spec (2 * k) n); cbn [orb]; try reflexivity;
    unfold spec_col, mdiff; cbn [nrows el]; rewrite HR, Rw; destruct (Nat.ltb_spec k (n / 2 + 1)); try lia;
    (assert (Z0 : Im (el Sx k h) = 0) by (apply Im0; lia)); destruct (el Sx k h) as [p q], (el Tx k h) as [p' q']; unfold Im in *; cbn [snd] in Z0; subst q; unfold Csub, Copp, Cadd; cbn [fst snd]; ring.
Qed.

(** ** three samples, slices of three *)
Definition a3 (p : padtype) : stft_args := SA 1 (WArray [1; 1; 1]) (Some 3%Z) (Some 3%Z) 1 true p false.
Lemma usable3 p x : p <> PSymmetric -> length x = 3%nat -> usable x (a3 p) 3 [1; 1; 1].
Proof.
  intros Hp L. unfold usable, a3. cbn. repeat split; try lia; try discriminate; try reflexivity. { intros ->. discriminate. } left. exact Hp.
Qed.
Definition t3 (p : nat -> list R) : mat C := of_slices true 3 3 p.
Lemma ready3 sl : istft_ready (t3 sl) (WArray [1; 1; 1]) [1; 1; 1] 3 3 1 (Some 3%Z) (Some 3%Z) (Some 3%Z) false.
Proof. unfold istft_ready. cbn. repeat split; try lia; try discriminate. Qed.
(** the first column stands for the slice 0, 6, 0 and the others for silence: no signal has that transform *)
Definition sl_a (h : nat) : list R := match h with O => [0; 6; 0] | _ => [0; 0; 0] end.
Lemma lsq_case : istft 0 (t3 sl_a) (WArray [1; 1; 1]) (Some 3%Z) (Some 3%Z) 1 (Some 3%Z) true 1 false = Ok [3; 0; 0] /\
  forall x, length x = 3%nat -> x <> [3; 0; 0] -> exists X dX Y dY, stft x (a3 PZero) = Ok (X, dX) /\ stft [3; 0; 0] (a3 PZero) = Ok (Y, dY) /\
    energy 3 (mdiff Y (t3 sl_a)) < energy 3 (mdiff X (t3 sl_a)).
Proof.
  assert (E : istft 0 (t3 sl_a) (WArray [1; 1; 1]) (Some 3%Z) (Some 3%Z) 1 (Some 3%Z) true 1 false = Ok [3; 0; 0]).
  { destruct (istft_any _ _ _ _ _ _ _ _ _ true _ 1 0 (ready3 sl_a)) as (y & E & L & V). rewrite E. f_equal.
    destruct y as [|y0 [|y1 [|y2 [|]]]]; cbn [length] in L; try lia.
    assert (F : forall h, frame true 3 (t3 sl_a) h = sl_a h) by (intros h; apply frame_of_slices; [lia|destruct h; reflexivity]).
    pose proof (V 0%nat ltac:(cbn; lia)) as (V0 & _). pose proof (V 1%nat ltac:(cbn; lia)) as (V1 & _). pose proof (V 2%nat ltac:(cbn; lia)) as (V2 & _).
    cbv zeta in *. change (Z.to_nat 3) with 3%nat in *. change (Z.to_nat (3 / 2)) with 1%nat in *. change (Z.to_nat 1) with 1%nat in *.
    assert (X : forall t g g', (forall h r, g h r = g' h r) -> over 1 3 (ncols (t3 sl_a)) t g = over 1 3 3 t g') by (intros; apply over_ext; auto).
    rewrite (X _ _ (fun h r => nth r (sl_a h) 0 * nth r [1; 1; 1] 0 ^ 1)) in V0 by (intros; rewrite F; reflexivity).
    rewrite (X _ _ (fun h r => nth r (sl_a h) 0 * nth r [1; 1; 1] 0 ^ 1)) in V1 by (intros; rewrite F; reflexivity).
    rewrite (X _ _ (fun h r => nth r (sl_a h) 0 * nth r [1; 1; 1] 0 ^ 1)) in V2 by (intros; rewrite F; reflexivity).
    unfold over, wsum, t3, of_slices in V0, V1, V2. cbn [ncols Rsum] in V0, V1, V2. cbn in V0, V1, V2.
    f_equal; [|f_equal; [|f_equal]]; [rewrite V0 by lra|rewrite V1 by lra|rewrite V2 by lra]; lra. }
  split; [exact E|]. intros x L Ne.
  refine (istft_only_nearest 0 (a3 PZero) 3 [1; 1; 1] (t3 sl_a) 3 (WArray [1; 1; 1]) (Some 3%Z) (Some 3%Z) (Some 3%Z) false [3; 0; 0] _ eq_refl _ _ eq_refl (ready3 sl_a) _ E x L Ne); [lia|lra| |].
  - intros x' L'. apply usable3; [discriminate|exact L'].
  - intros i Hi. destruct i as [|[|[|]]]; try lia; unfold wsum, t3, of_slices; change (Z.to_nat (a_hop (a3 PZero))) with 1%nat; cbn; lra.
Qed.
(** with the default padding, reflect, another signal can be nearer: the first column stands for the slice 5, 0, 0 and the others for silence *)
Definition sl_b (h : nat) : list R := match h with O => [5; 0; 0] | _ => [0; 0; 0] end.
Lemma reflect_not_nearest : exists a n w Tx y x X dX Y dY, a_padtype a = PReflect /\ usable x a n w /\ usable y a n w /\ length x = length y /\
  istft_ready Tx (a_window a) w (Z.of_nat n) (Z.of_nat (length x)) (a_hop a) (a_win_len a) (a_n_fft a) (Some (Z.of_nat (length x))) (a_f32 a) /\
  (forall i, (i < length x)%nat -> 0 < wsum w (Z.to_nat (a_hop a)) (ncols Tx) 2 (n / 2 + i)) /\
  istft 0 Tx (a_window a) (a_n_fft a) (a_win_len a) (a_hop a) (Some (Z.of_nat (length x))) (a_modulated a) 1 (a_f32 a) = Ok y /\
  stft x a = Ok (X, dX) /\ stft y a = Ok (Y, dY) /\ energy n (mdiff X Tx) < energy n (mdiff Y Tx).
Proof.
  assert (E : istft 0 (t3 sl_b) (WArray [1; 1; 1]) (Some 3%Z) (Some 3%Z) 1 (Some 3%Z) true 1 false = Ok [0; 0; 0]).
  { destruct (istft_any _ _ _ _ _ _ _ _ _ true _ 1 0 (ready3 sl_b)) as (y & E & L & V). rewrite E. f_equal.
    destruct y as [|y0 [|y1 [|y2 [|]]]]; cbn [length] in L; try lia.
    assert (F : forall h, frame true 3 (t3 sl_b) h = sl_b h) by (intros h; apply frame_of_slices; [lia|destruct h; reflexivity]).
    pose proof (V 0%nat ltac:(cbn; lia)) as (V0 & _). pose proof (V 1%nat ltac:(cbn; lia)) as (V1 & _). pose proof (V 2%nat ltac:(cbn; lia)) as (V2 & _).
    cbv zeta in *. change (Z.to_nat 3) with 3%nat in *. change (Z.to_nat (3 / 2)) with 1%nat in *. change (Z.to_nat 1) with 1%nat in *.
    assert (X : forall t g g', (forall h r, g h r = g' h r) -> over 1 3 (ncols (t3 sl_b)) t g = over 1 3 3 t g') by (intros; apply over_ext; auto).
    rewrite (X _ _ (fun h r => nth r (sl_b h) 0 * nth r [1; 1; 1] 0 ^ 1)) in V0 by (intros; rewrite F; reflexivity).
    rewrite (X _ _ (fun h r => nth r (sl_b h) 0 * nth r [1; 1; 1] 0 ^ 1)) in V1 by (intros; rewrite F; reflexivity).
    rewrite (X _ _ (fun h r => nth r (sl_b h) 0 * nth r [1; 1; 1] 0 ^ 1)) in V2 by (intros; rewrite F; reflexivity).
    unfold over, wsum, t3, of_slices in V0, V1, V2. cbn [ncols Rsum] in V0, V1, V2. cbn in V0, V1, V2.
    f_equal; [|f_equal; [|f_equal]]; [rewrite V0 by lra|rewrite V1 by lra|rewrite V2 by lra]; lra. }
  assert (M : forall x xp, padded x (a3 PReflect) 3 xp -> length x = 3%nat -> xp = [nth 1 x 0; nth 0 x 0; nth 1 x 0; nth 2 x 0; nth 1 x 0]).
  { intros x xp (u & v & P) L. destruct x as [|x0 [|x1 [|x2 [|]]]]; cbn [length] in L; try lia. cbn in P. injection P as <- _ _. reflexivity. }
  assert (UX : usable [0; 1; 0] (a3 PReflect) 3 [1; 1; 1]) by (apply usable3; [discriminate|reflexivity]).
  assert (UY : usable [0; 0; 0] (a3 PReflect) 3 [1; 1; 1]) by (apply usable3; [discriminate|reflexivity]).
  destruct (misfit_energy_any _ _ _ _ (t3 sl_b) UX ltac:(lia) eq_refl eq_refl) as (xp & X & dX & PX & EX & MX).
  destruct (misfit_energy_any _ _ _ _ (t3 sl_b) UY ltac:(lia) eq_refl eq_refl) as (yp & Y & dY & PY & EY & MY).
  exists (a3 PReflect), 3%nat, [1; 1; 1], (t3 sl_b), [0; 0; 0], [0; 1; 0], X, dX, Y, dY.
  split; [reflexivity|]. split; [exact UX|]. split; [exact UY|]. split; [reflexivity|]. split; [apply ready3|].
  split. { intros i Hi. cbn [length] in Hi. destruct i as [|[|[|]]]; try lia; unfold wsum, t3, of_slices; change (Z.to_nat (a_hop (a3 PReflect))) with 1%nat; cbn; lra. }
  split; [exact E|]. split; [exact EX|]. split; [exact EY|]. rewrite MX, MY.
  rewrite (M _ _ PX eq_refl), (M _ _ PY eq_refl). apply Rplus_lt_compat_r. apply Rmult_lt_compat_l; [apply lt_0_INR; lia|].
  assert (F : forall h, frame true 3 (t3 sl_b) h = sl_b h) by (intros h; apply frame_of_slices; [lia|destruct h; reflexivity]).
  unfold misfit. change (a_modulated (a3 PReflect)) with true. change (length [1; 1; 1]) with 3%nat. change (ncols (t3 sl_b)) with 3%nat. change (Z.to_nat (a_hop (a3 PReflect))) with 1%nat.
  cbn [Rsum]. rewrite !F. cbn. lra.
Qed.

(** ** errors in the array *)
Lemma edge_nonneg n X : 0 <= edge n X.
Proof. apply Rsum_nonneg. intros k _. destruct (_ || _); [apply pow2_ge_0|lra]. Qed.
Theorem istft_stable Sx Tx wa w n N hop wl nf No modulated f32 tiny : istft_ready Sx wa w (Z.of_nat n) N hop wl nf No f32 ->
  nrows Sx = (n / 2 + 1)%nat -> nrows Tx = nrows Sx -> ncols Tx = ncols Sx -> 0 <= tiny ->
  let s i := wsum w (Z.to_nat hop) (ncols Sx) 2 (n / 2 + i) in
  (forall i, (i < Z.to_nat N)%nat -> tiny < s i) ->
  exists y z, istft tiny Sx wa nf wl hop No modulated 1 f32 = Ok y /\ istft tiny Tx wa nf wl hop No modulated 1 f32 = Ok z /\
    INR n * Rsum (Z.to_nat N) (fun i => s i * (nth i y 0 - nth i z 0) ^ 2) <= energy n (mdiff Sx Tx).
Proof.
  intros R Hrow Hr Hc Ht s Hs. assert (En : Z.to_nat (Z.of_nat n / 2) = (n / 2)%nat) by lia.
  destruct (istft_linear Sx Tx 1 (-1) _ _ _ _ _ _ _ _ modulated _ 1 tiny R Hr Hc Ht) as (y & z & u & Ey & Ez & Eu & Ly & Lz & Lu & V).
  { intros i Hi. rewrite En. specialize (Hs i Hi). unfold s in Hs. change (1 + 1)%nat with 2%nat. lra. }
  exists y, z. split; [exact Ey|]. split; [exact Ez|].
  assert (RU : istft_ready (mlin 1 Sx (-1) Tx) wa w (Z.of_nat n) N hop wl nf No f32) by exact R.
  pose proof (istft_energy _ _ _ _ _ _ _ _ _ modulated _ tiny u RU Ht) as B. cbv zeta in B. rewrite En in B. specialize (B Hs Eu). rewrite Nat2Z.id in B.
  assert (E1 : energy n (mdiff Sx Tx) = energy n (mlin 1 Sx (-1) Tx)).
  { unfold energy, col_energy, mdiff, mlin. cbn [ncols el]. apply Rsum_ext. intros h _. apply Rsum_ext. intros k _. do 3 f_equal. apply C_eq; unfold Csub, Copp, Cadd, Cmul, RtoC; cbn [fst snd]; ring. }
  rewrite E1, (energy_split modulated) by (cbn [mlin nrows]; destruct R; lia).
  assert (0 <= Rsum (ncols (mlin 1 Sx (-1) Tx)) (fun h => edge n (spec_col (mlin 1 Sx (-1) Tx) h))) by (apply Rsum_nonneg; intros; apply edge_nonneg).
  assert (E2 : Rsum (Z.to_nat N) (fun i => s i * (nth i y 0 - nth i z 0) ^ 2) = Rsum (length u) (fun i => wsum w (Z.to_nat hop) (ncols (mlin 1 Sx (-1) Tx)) 2 (n / 2 + i) * nth i u 0 ^ 2)).
  { replace (length u) with (Z.to_nat N) by lia. apply Rsum_ext. intros i Hi. rewrite (V i Hi). unfold s. cbn [mlin ncols]. f_equal. ring. }
  rewrite E2. pose proof (pos_INR n). pose proof (Rmult_le_compat_l (INR n) _ _ H0 B). lra.
Qed.
Lemma stable_case : exists y z, istft 0 (t3 sl_a) (WArray [1; 1; 1]) (Some 3%Z) (Some 3%Z) 1 (Some 3%Z) true 1 false = Ok y /\
  istft 0 (t3 sl_b) (WArray [1; 1; 1]) (Some 3%Z) (Some 3%Z) 1 (Some 3%Z) true 1 false = Ok z /\
  INR 3 * Rsum 3 (fun i => wsum [1; 1; 1] 1 3 2 (1 + i) * (nth i y 0 - nth i z 0) ^ 2) <= energy 3 (mdiff (t3 sl_a) (t3 sl_b)).
Proof.
  apply (istft_stable (t3 sl_a) (t3 sl_b) (WArray [1; 1; 1]) [1; 1; 1] 3 3 1 (Some 3%Z) (Some 3%Z) (Some 3%Z) true false 0); try reflexivity; [apply ready3|lra|].
  intros i Hi. change (Z.to_nat 3) with 3%nat in Hi. change (Z.to_nat 1) with 1%nat. destruct i as [|[|[|]]]; try lia; unfold wsum, t3, of_slices; cbn; lra.
Qed.
Lemma linear_case : exists y z u, istft 0 (t3 sl_a) (WArray [1; 1; 1]) (Some 3%Z) (Some 3%Z) 1 (Some 3%Z) true 0 false = Ok y /\
  istft 0 (t3 sl_b) (WArray [1; 1; 1]) (Some 3%Z) (Some 3%Z) 1 (Some 3%Z) true 0 false = Ok z /\
  istft 0 (mlin 2 (t3 sl_a) (-3) (t3 sl_b)) (WArray [1; 1; 1]) (Some 3%Z) (Some 3%Z) 1 (Some 3%Z) true 0 false = Ok u /\
  forall i, (i < 3)%nat -> nth i u 0 = 2 * nth i y 0 + -3 * nth i z 0.
Proof.
  destruct (istft_linear (t3 sl_a) (t3 sl_b) 2 (-3) (WArray [1; 1; 1]) [1; 1; 1] 3 3 1 (Some 3%Z) (Some 3%Z) (Some 3%Z) true false 0 0 (ready3 _) eq_refl eq_refl ltac:(lra)) as (y & z & u & A & B & D & _ & _ & _ & V).
  - intros i Hi. change (Z.to_nat 3) with 3%nat in Hi. change (Z.to_nat 1) with 1%nat. change (Z.to_nat (3 / 2)) with 1%nat. destruct i as [|[|[|]]]; try lia; unfold wsum, t3, of_slices; cbn; lra.
  - exists y, z, u. repeat (split; [assumption|]). exact V.
Qed.
