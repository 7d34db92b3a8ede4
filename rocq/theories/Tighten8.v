(** Sharper forms of earlier claims: what one call of the FFT class computes. *)
From Coq Require Import Reals Lra Lia List ZifyBool ZifyNat.
Import ListNotations.
From Verif Require Import Py Cplx CplxProofs FftCache FftCacheProofs.
Local Open Scope R_scope.

(** [x] has [len] entries along [axis] *)
Definition fits (x : arr) (axis : Z) (len : nat) : Prop :=
  (a_shape x = [len] /\ (axis = 0%Z \/ axis = (-1)%Z)) \/ (exists c, a_shape x = [len; c] /\ axis = 0%Z) \/
  (exists r, a_shape x = [r; len] /\ (axis = 1%Z \/ axis = (-1)%Z)).
(** the [i]-th line of [x] along [axis] *)
Definition line (x : arr) (axis : Z) (i : nat) : nat -> C :=
  match a_shape x with
  | [_] => a_data x 0
  | _ => if (axis =? 0)%Z then fun k => a_data x k i else a_data x i
  end.
(** the shape of [x] with [m] entries along [axis] *)
Definition reshaped (x : arr) (axis : Z) (m : nat) : list nat :=
  match a_shape x with
  | [_] => [m]
  | [r; c] => if (axis =? 0)%Z then [m; c] else [r; m]
  | s => s
  end.
Definition double (d : dtype) : bool := match d with F64 | C128 => true | _ => false end.
Definition patience_ok (p : Z) : Prop := p = 0%Z \/ p = 1%Z \/ p = 2%Z.

Lemma along_line x axis len m d f i : fits x axis len ->
  line (along x axis m d f) axis i = f (line x axis i) /\ a_shape (along x axis m d f) = reshaped x axis m /\ a_dtype (along x axis m d f) = d /\ fits (along x axis m d f) axis m.
Proof.
  intros [(E & H)|[(c & E & ->)|(r & E & H)]]; unfold line, along, reshaped, fits; rewrite E.
  - cbn. split; [reflexivity|]. split; [reflexivity|]. split; [reflexivity|]. left. split; [reflexivity|exact H].
  - cbn. split; [reflexivity|]. split; [reflexivity|]. split; [reflexivity|]. right. left. exists c. split; reflexivity.
  - assert (Ha : (axis =? 0)%Z = false) by lia. rewrite Ha. cbn. split; [reflexivity|]. split; [reflexivity|]. split; [reflexivity|]. right. right. exists r. split; [reflexivity|exact H].
Qed.
Lemma fits_len x axis len : fits x axis len -> axis_len x axis = Some len /\ negb ((axis =? 0)%Z || (axis =? 1)%Z || (axis =? -1)%Z) = false.
Proof.
  intros [(E & H)|[(c & E & ->)|(r & E & H)]]; unfold axis_len; rewrite E.
  - destruct H as [-> | ->]; split; reflexivity.
  - split; reflexivity.
  - destruct H as [-> | ->]; split; reflexivity.
Qed.
Lemma reshaped_same x axis len : fits x axis len -> reshaped x axis len = a_shape x.
Proof.
  intros [(E & H)|[(c & E & ->)|(r & E & H)]]; unfold reshaped; rewrite E; [reflexivity|reflexivity|].
  assert (Ha : (axis =? 0)%Z = false) by lia. rewrite Ha. reflexivity.
Qed.
Lemma alone_ok inv real axis no pat x len y : fits x axis len -> a_dtype x <> OtherDtype -> patience_ok pat ->
  transform inv real axis no x = Ok y -> alone (FC inv real axis no pat x) = Ok (Some y).
Proof.
  intros Hf Hd Hp E. rewrite alone_transform; cbn [f_inv f_real f_axis f_n f_x]; [rewrite E; reflexivity|].
  destruct Hp as [Hp|Hp]; [left; exact Hp|right]. unfold validate. cbn [f_inv f_real f_axis f_n f_x f_pat]. rewrite (proj2 (fits_len x axis len Hf)).
  assert (Hr : real && negb inv && is_cplx (a_dtype x) = false).
  { unfold transform in E. destruct (real && negb inv && is_cplx (a_dtype x)); [discriminate|reflexivity]. }
  revert Hr. destruct (a_dtype x); try congruence; intros Hr; rewrite Hr; (destruct Hp as [-> | ->]; reflexivity).
Qed.

Theorem fft_values x axis no pat len : fits x axis len -> a_dtype x <> OtherDtype -> patience_ok pat -> exists y z,
  alone (FC false false axis no pat x) = Ok (Some y) /\ alone (FC true false axis no pat x) = Ok (Some z) /\
  a_shape y = a_shape x /\ a_shape z = a_shape x /\ a_dtype y = (if double (a_dtype x) then C128 else C64) /\ a_dtype z = a_dtype y /\
  forall i k, line y axis i k = Csum len (fun m => Cmul (line x axis i m) (cis (- (2 * PI * INR k * INR m / INR len)))) /\
              line z axis i k = Cmul (RtoC (/ INR len)) (Csum len (fun m => Cmul (line x axis i m) (cis (2 * PI * INR k * INR m / INR len)))).
Proof.
  intros Hf Hd Hp. destruct (fits_len _ _ _ Hf) as [Hl _].
  set (cd := if double (a_dtype x) then C128 else C64).
  exists (along x axis len cd (dft len)), (along x axis len cd (idft len)).
  split; [apply (alone_ok _ _ _ _ _ _ len); try assumption; unfold transform; rewrite Hl; reflexivity|].
  split; [apply (alone_ok _ _ _ _ _ _ len); try assumption; unfold transform; rewrite Hl; reflexivity|].
  destruct (along_line x axis len len cd (dft len) 0 Hf) as (_ & S1 & D1 & _). destruct (along_line x axis len len cd (idft len) 0 Hf) as (_ & S2 & D2 & _).
  rewrite S1, S2, D1, D2, (reshaped_same x axis len Hf). split; [reflexivity|]. split; [reflexivity|]. split; [reflexivity|]. split; [reflexivity|].
  intros i k. rewrite (proj1 (along_line x axis len len cd (dft len) i Hf)), (proj1 (along_line x axis len len cd (idft len) i Hf)). unfold dft, idft, tw.
  split; [|f_equal]; apply Csum_ext; intros m Hm; do 2 f_equal; rewrite ?opp_IZR, mult_IZR, <- !INR_IZR_INZ; unfold Rdiv; ring.
Qed.

Theorem fft_back x axis no pat len : fits x axis len -> (1 <= len)%nat -> a_dtype x <> OtherDtype -> patience_ok pat -> exists y z y' z',
  alone (FC false false axis no pat x) = Ok (Some y) /\ alone (FC true false axis no pat y) = Ok (Some z) /\
  alone (FC true false axis no pat x) = Ok (Some y') /\ alone (FC false false axis no pat y') = Ok (Some z') /\
  a_shape z = a_shape x /\ a_shape z' = a_shape x /\ forall i m, (m < len)%nat -> line z axis i m = line x axis i m /\ line z' axis i m = line x axis i m.
Proof.
  intros Hf H1 Hd Hp. destruct (fits_len _ _ _ Hf) as [Hl _].
  set (cd := if double (a_dtype x) then C128 else C64).
  assert (Hcd : cd <> OtherDtype) by (unfold cd; destruct (double _); discriminate).
  assert (Hdd : (if double cd then C128 else C64) = cd) by (unfold cd; destruct (double _); reflexivity).
  set (y := along x axis len cd (dft len)). set (y' := along x axis len cd (idft len)).
  assert (Fy : fits y axis len) by apply (along_line x axis len len cd (dft len) 0 Hf). assert (Fy' : fits y' axis len) by apply (along_line x axis len len cd (idft len) 0 Hf).
  assert (Dy : a_dtype y = cd) by apply (along_line x axis len len cd (dft len) 0 Hf). assert (Dy' : a_dtype y' = cd) by apply (along_line x axis len len cd (idft len) 0 Hf).
  assert (Sy : a_shape y = reshaped x axis len) by apply (along_line x axis len len cd (dft len) 0 Hf). assert (Sy' : a_shape y' = reshaped x axis len) by apply (along_line x axis len len cd (idft len) 0 Hf).
  exists y, (along y axis len cd (idft len)), y', (along y' axis len cd (dft len)).
  split; [apply (alone_ok _ _ _ _ _ _ len); try assumption; unfold transform; rewrite Hl; reflexivity|].
  split; [apply (alone_ok _ _ _ _ _ _ len); [exact Fy|congruence|exact Hp|]; unfold transform; rewrite (proj1 (fits_len _ _ _ Fy)), Dy; fold (double cd); rewrite Hdd; reflexivity|].
  split; [apply (alone_ok _ _ _ _ _ _ len); try assumption; unfold transform; rewrite Hl; reflexivity|].
  split; [apply (alone_ok _ _ _ _ _ _ len); [exact Fy'|congruence|exact Hp|]; unfold transform; rewrite (proj1 (fits_len _ _ _ Fy')), Dy'; fold (double cd); rewrite Hdd; reflexivity|].
  destruct (along_line y axis len len cd (idft len) 0 Fy) as (_ & S1 & _). destruct (along_line y' axis len len cd (dft len) 0 Fy') as (_ & S2 & _).
  rewrite S1, S2, (reshaped_same _ _ _ Fy), (reshaped_same _ _ _ Fy'), Sy, Sy', (reshaped_same _ _ _ Hf). split; [reflexivity|]. split; [reflexivity|].
  intros i m Hm. rewrite (proj1 (along_line y axis len len cd (idft len) i Fy)), (proj1 (along_line y' axis len len cd (dft len) i Fy')). unfold y, y'.
  rewrite (proj1 (along_line x axis len len cd (dft len) i Hf)), (proj1 (along_line x axis len len cd (idft len) i Hf)).
  split; [apply idft_dft; assumption|apply dft_idft; assumption].
Qed.

(** real transforms: [rfft] takes [len/2+1] sums; [irfft] with [n=len] returns the signal *)
Theorem rfft_values x axis no pat len : fits x axis len -> (1 <= len)%nat -> (a_dtype x = F32 \/ a_dtype x = F64) -> patience_ok pat -> exists y z,
  alone (FC false true axis no pat x) = Ok (Some y) /\ alone (FC true true axis (Some (Z.of_nat len)) pat y) = Ok (Some z) /\
  a_shape y = reshaped x axis (len / 2 + 1) /\ a_dtype y = (if double (a_dtype x) then C128 else C64) /\ a_shape z = a_shape x /\ a_dtype z = a_dtype x /\
  (forall i k, line y axis i k = Csum len (fun m => Cmul (RtoC (Re (line x axis i m))) (cis (- (2 * PI * INR k * INR m / INR len))))) /\
  forall i m, (m < len)%nat -> line z axis i m = RtoC (Re (line x axis i m)).
Proof.
  intros Hf H1 Hd Hp. destruct (fits_len _ _ _ Hf) as [Hl _].
  assert (Hd' : a_dtype x <> OtherDtype) by (destruct Hd; congruence). assert (Hc : is_cplx (a_dtype x) = false) by (destruct Hd as [-> | ->]; reflexivity).
  set (cd := if double (a_dtype x) then C128 else C64).
  assert (Hcd : cd <> OtherDtype) by (unfold cd; destruct (double _); discriminate).
  assert (Hrd : (if double cd then F64 else F32) = a_dtype x) by (unfold cd; destruct Hd as [-> | ->]; reflexivity).
  set (F := fun (v : nat -> C) k => rfft len (fun m => Re (v m)) k). set (G := fun (v : nat -> C) m => RtoC (irfft len v m)).
  set (y := along x axis (rfft_len len) cd F).
  destruct (along_line x axis len (rfft_len len) cd F 0 Hf) as (_ & Sy & Dy & Fy). fold y in Sy, Dy, Fy.
  exists y, (along y axis len (a_dtype x) G).
  split; [apply (alone_ok _ _ _ _ _ _ len); try assumption; unfold transform; rewrite Hl, Hc; reflexivity|].
  split.
  { apply (alone_ok _ _ _ _ _ _ (rfft_len len)); [exact Fy|congruence|exact Hp|]. unfold transform. rewrite (proj1 (fits_len _ _ _ Fy)), Dy. fold (double cd). cbn [negb andb].
    rewrite Nat2Z.id, Nat.eqb_refl, Hrd. reflexivity. }
  destruct (along_line y axis (rfft_len len) len (a_dtype x) G 0 Fy) as (_ & S2 & D2 & _).
  rewrite S2, D2, Dy. split; [exact Sy|]. split; [reflexivity|].
  assert (Hs : reshaped y axis len = a_shape x).
  { rewrite <- (reshaped_same x axis len Hf) at 1. unfold reshaped at 1. rewrite Sy. unfold reshaped. destruct Hf as [(E & H)|[(c & E & ->)|(r & E & H)]]; rewrite E; [reflexivity|reflexivity|].
    assert (Ha : (axis =? 0)%Z = false) by lia. rewrite !Ha. reflexivity. }
  rewrite Hs. split; [reflexivity|]. split; [reflexivity|]. split.
  - intros i k. unfold y. rewrite (proj1 (along_line x axis len (rfft_len len) cd F i Hf)). unfold F, rfft, dft, tw. apply Csum_ext. intros m Hm. do 2 f_equal.
    rewrite opp_IZR, mult_IZR, <- !INR_IZR_INZ. unfold Rdiv. ring.
  - intros i m Hm. rewrite (proj1 (along_line y axis (rfft_len len) len (a_dtype x) G i Fy)). unfold y. rewrite (proj1 (along_line x axis len (rfft_len len) cd F i Hf)). unfold G, F.
    f_equal. apply (irfft_rfft len H1 (fun m => Re (line x axis i m)) m Hm).
Qed.
(** [irfft] told no length returns an even one: one sample short when the signal had an odd number *)
Theorem irfft_default x axis no pat len : fits x axis len -> (2 <= len)%nat -> (a_dtype x = F32 \/ a_dtype x = F64) -> patience_ok pat -> exists y z,
  alone (FC false true axis no pat x) = Ok (Some y) /\ alone (FC true true axis None pat y) = Ok (Some z) /\ fits z axis (2 * (len / 2)).
Proof.
  intros Hf H1 Hd Hp. destruct (fits_len _ _ _ Hf) as [Hl _].
  assert (Hd' : a_dtype x <> OtherDtype) by (destruct Hd; congruence). assert (Hc : is_cplx (a_dtype x) = false) by (destruct Hd as [-> | ->]; reflexivity).
  set (cd := if double (a_dtype x) then C128 else C64).
  assert (Hcd : cd <> OtherDtype) by (unfold cd; destruct (double _); discriminate).
  set (F := fun (v : nat -> C) k => rfft len (fun m => Re (v m)) k).
  set (y := along x axis (rfft_len len) cd F).
  destruct (along_line x axis len (rfft_len len) cd F 0 Hf) as (_ & Sy & Dy & Fy). fold y in Sy, Dy, Fy.
  set (nf := (2 * (rfft_len len - 1))%nat). assert (Hn : nf = (2 * (len / 2))%nat) by (unfold nf, rfft_len; lia).
  exists y, (along y axis nf (if double cd then F64 else F32) (fun v m => RtoC (irfft nf v m))).
  split; [apply (alone_ok _ _ _ _ _ _ len); try assumption; unfold transform; rewrite Hl, Hc; reflexivity|].
  split.
  { apply (alone_ok _ _ _ _ _ _ (rfft_len len)); [exact Fy|congruence|exact Hp|]. unfold transform. rewrite (proj1 (fits_len _ _ _ Fy)), Dy. fold (double cd). cbn [negb andb].
    fold nf. assert (Hr : rfft_len nf = rfft_len len).
    { unfold rfft_len. rewrite Hn, Nat.mul_comm, Nat.div_mul by lia. reflexivity. }
    rewrite Hr, Nat.eqb_refl. reflexivity. }
  rewrite <- Hn. apply (along_line y axis (rfft_len len) nf _ _ 0 Fy).
Qed.

(** a 2-by-3 array, along either axis *)
Definition sheet : arr := Arr [2; 3]%nat F64 (fun i j => RtoC (INR (i + 2 * j))).
Lemma sheet_fits : fits sheet 0 2 /\ fits sheet 1 3 /\ fits sheet (-1) 3 /\ a_dtype sheet = F64 /\ patience_ok 1.
Proof.
  split; [right; left; exists 3%nat; split; reflexivity|]. split; [right; right; exists 2%nat; split; [reflexivity|left; reflexivity]|].
  split; [right; right; exists 2%nat; split; [reflexivity|right; reflexivity]|]. split; [reflexivity|]. right. left. reflexivity.
Qed.
Lemma sheet_case : exists y z, alone (FC false true 1 None 1 sheet) = Ok (Some y) /\ a_shape y = [2; 2]%nat /\ alone (FC true true 1 (Some 3%Z) 1 y) = Ok (Some z) /\
  a_shape z = [2; 3]%nat /\ a_data z 1 2 = RtoC 5.
Proof.
  destruct sheet_fits as (_ & Hf & _ & Hd & Hp). destruct (rfft_values sheet 1 None 1 3 Hf ltac:(lia) (or_intror Hd) Hp) as (y & z & E1 & E2 & Sy & _ & Sz & _ & _ & V).
  exists y, z. split; [exact E1|]. split; [exact Sy|]. split; [exact E2|]. split; [exact Sz|]. specialize (V 1%nat 2%nat ltac:(lia)).
  unfold line in V. rewrite Sz in V. cbn in V. rewrite V. unfold RtoC, Re. cbn [fst]. f_equal. lra.
Qed.
