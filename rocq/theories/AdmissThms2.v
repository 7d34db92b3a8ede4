(** Consequences for [integrate_analytic], [adm_ssq], [adm_cwt]. *)
From Coq Require Import Reals Lra Lia Sorted ZifyBool ZifyNat.
From Verif Require Import Py Cplx CplxProofs Squeeze SqueezeProofs BinProofs Resol ResolProofs ToolkitThms Admiss AdmissThms.
Local Open Scope R_scope.

Lemma Ok_inj A B (a c : A) (b d : B) : Ok (a, b) = Ok (c, d) -> a = c /\ b = d.
Proof. intros [= -> ->]. auto. Qed.
Lemma npts_pos m : (1 <= m)%Z -> (1 <= npts m)%nat.
Proof. unfold npts. lia. Qed.
(** every value is a left part plus a right part of one of the ranges *)
Lemma integrate_value fn nowarn v b : integrate_analytic fn nowarn = Ok (v, b) -> exists m L n, In (m, L) attempts /\
  stops fn L (npts m) n /\ v = right_part fn L (npts m) n + left_part fn.
Proof.
  intros E. destruct (integrate_spec fn nowarn) as [(m & L & n & Hin & S & _ & _ & E')|[_ [[_ E']|(_ & n & S & E')]]]; rewrite E' in E; clear E'.
  - apply Ok_inj in E. destruct E as [<- <-]. exists m, L, n. auto.
  - discriminate E.
  - apply Ok_inj in E. destruct E as [<- <-]. exists 8%Z, 160, n. split; [cbn; tauto|]. now split.
Qed.
Theorem integrate_nonneg fn nowarn v b : (forall w, 0 < w -> 0 <= fn w) -> integrate_analytic fn nowarn = Ok (v, b) -> 0 <= v.
Proof.
  intros H E. destruct (integrate_value _ _ _ _ E) as (m & L & n & Hin & (p & _ & Hn & _) & ->). destruct (attempt_range m L Hin) as [Hm HL].
  pose proof (left_nonneg fn H). pose proof (right_nonneg fn L (npts m) n ltac:(lra) (npts_pos m ltac:(lia)) ltac:(lia) H). lra.
Qed.
Theorem integrate_positive fn nowarn v b : (forall w, 0 < w -> 0 < fn w) -> integrate_analytic fn nowarn = Ok (v, b) -> 0 < v.
Proof.
  intros H E. destruct (integrate_value _ _ _ _ E) as (m & L & n & Hin & (p & _ & Hn & _) & ->). destruct (attempt_range m L Hin) as [Hm HL].
  pose proof (left_pos fn H).
  pose proof (right_nonneg fn L (npts m) n ltac:(lra) (npts_pos m ltac:(lia)) ltac:(lia) (fun w Hw => Rlt_le _ _ (H w Hw))). lra.
Qed.
Lemma Rsum_tele n f : Rsum n (fun i => f (S i) - f i) = f n - f 0%nat.
Proof. induction n as [|n IH]; cbn [Rsum]; [ring|]. rewrite IH. ring. Qed.
Lemma Rsum_abs n f : Rabs (Rsum n f) <= Rsum n (fun i => Rabs (f i)).
Proof.
  induction n as [|n IH]; cbn [Rsum]; [rewrite Rabs_R0; lra|]. eapply Rle_trans; [apply Rabs_triang|]. lra.
Qed.
Lemma left_bound fn M : (forall w, 0 < w -> Rabs (fn w) <= M) -> Rabs (left_part fn) <= M / 10.
Proof.
  intros H. assert (HM : 0 <= M) by (eapply Rle_trans; [apply Rabs_pos|apply (H 1); lra]).
  unfold left_part. eapply Rle_trans; [apply Rsum_abs|].
  apply Rle_trans with (Rsum 999 (fun i => M * (lgrid (S i) - lgrid i))).
  - apply Rsum_le. intros i _. pose proof (lgrid_succ i). pose proof (H _ (lgrid_pos i)). pose proof (H _ (lgrid_pos (S i))).
    unfold Rdiv. rewrite !Rabs_mult, (Rabs_pos_eq (lgrid (S i) - lgrid i)), (Rabs_pos_eq (/ 2)) by lra.
    pose proof (Rabs_triang (fn (lgrid i)) (fn (lgrid (S i)))).
    replace ((lgrid (S i) - lgrid i) * Rabs (fn (lgrid i) + fn (lgrid (S i))) * / 2) with ((lgrid (S i) - lgrid i) * (Rabs (fn (lgrid i) + fn (lgrid (S i))) / 2)) by (unfold Rdiv; ring).
    rewrite (Rmult_comm M). apply Rmult_le_compat_l; lra.
  - rewrite Rsum_scal, Rsum_tele. destruct lgrid_ends as [E0 E1]. rewrite E0, E1. assert (0 < 1 / 10 ^ 15) by lra.
    unfold Rdiv. apply Rmult_le_compat_l; lra.
Qed.
Lemma right_bound fn M L N n : 1 / 10 < L -> (n <= N)%nat -> (1 <= N)%nat -> (forall w, 0 < w -> Rabs (fn w) <= M) -> Rabs (right_part fn L N n) <= M * (L - 1 / 10).
Proof.
  intros HL Hn HN H. assert (HM : 0 <= M) by (eapply Rle_trans; [apply Rabs_pos|apply (H 1); lra]).
  pose proof (rstep_pos L N HL HN) as Hs. unfold right_part. rewrite Rabs_mult, (Rabs_pos_eq (rstep L N)) by lra.
  assert (Hb : Rabs (Rsum (n - 1) (fun i => (fn (rgrid L N i) + fn (rgrid L N (S i))) / 2)) <= INR N * M).
  { eapply Rle_trans; [apply Rsum_abs|]. apply Rle_trans with (Rsum (n - 1) (fun _ => M)).
    - apply Rsum_le. intros i Hi. pose proof (rgrid_range L N i HL ltac:(lia)). pose proof (rgrid_range L N (S i) HL ltac:(lia)).
      pose proof (H (rgrid L N i) ltac:(lra)). pose proof (H (rgrid L N (S i)) ltac:(lra)).
      unfold Rdiv. rewrite Rabs_mult, (Rabs_pos_eq (/ 2)) by lra. pose proof (Rabs_triang (fn (rgrid L N i)) (fn (rgrid L N (S i)))). lra.
    - rewrite Rsum_const. apply Rmult_le_compat_r; [exact HM|]. apply le_INR. lia. }
  apply Rle_trans with (rstep L N * (INR N * M)); [apply Rmult_le_compat_l; lra|]. right. unfold rstep. field.
  apply not_0_INR. lia.
Qed.
Theorem integrate_bound fn nowarn v b M : (forall w, 0 < w -> Rabs (fn w) <= M) -> integrate_analytic fn nowarn = Ok (v, b) -> Rabs v <= 160 * M.
Proof.
  intros H E. assert (HM : 0 <= M) by (eapply Rle_trans; [apply Rabs_pos|apply (H 1); lra]).
  destruct (integrate_value _ _ _ _ E) as (m & L & n & Hin & (p & _ & Hn & _) & ->). destruct (attempt_range m L Hin) as [Hm HL].
  pose proof (left_bound fn M H). pose proof (right_bound fn M L (npts m) n ltac:(lra) ltac:(lia) (npts_pos m ltac:(lia)) H).
  pose proof (Rabs_triang (right_part fn L (npts m) n) (left_part fn)). nra.
Qed.

(** ** when it converges *)
Lemma Rsum_pos_exists n f : 0 < Rsum n f -> exists i, (i < n)%nat /\ 0 < f i.
Proof.
  induction n as [|n IH]; cbn [Rsum]; intros H; [lra|]. destruct (Rlt_dec 0 (f n)) as [Hn|Hn]; [now exists n; split; [lia|]|].
  destruct IH as (i & Hi & Hp); [lra|]. exists i. split; [lia|exact Hp].
Qed.
(** a nonnegative integrand that is zero on the last tenth of a range, and not flat, converges *)
Theorem integrate_support fn nowarn m L k : In (m, L) attempts -> (forall w, 0 < w -> 0 <= fn w) ->
  (1000 * m < 10000 * m - Z.of_nat k)%Z -> (forall i, (k <= i < npts m)%nat -> fn (rgrid L (npts m) i) = 0) ->
  1 / 10 ^ 5 < Rsum (npts m) (fun i => Rabs (fn (rgrid L (npts m) i))) ->
  exists v, integrate_analytic fn nowarn = Ok (v, false) /\ 0 <= v.
Proof.
  intros Hin Hf Hk Hz Hs. assert (exists v, integrate_analytic fn nowarn = Ok (v, false)) as [v E].
  { destruct (integrate_spec fn nowarn) as [(? & ? & ? & _ & _ & _ & _ & E')|[Hn _]]; [eauto|]. exfalso.
    destruct (Hn m L Hin) as (n & (p & Hp & HnN & Hmax & _ & Ha & _) & C). apply C. split; [|exact Hs].
    destruct (attempt_range m L Hin) as [Hm HL].
    destruct (Rsum_pos_exists (npts m) (fun i => Rabs (fn (rgrid L (npts m) i)))) as (i & Hi & Hpos); [lra|].
    pose proof (Hmax i Hi) as Hmi. rewrite Rabs_pos_eq in Hpos by (apply Hf; pose proof (rgrid_range L (npts m) i ltac:(lra) Hi); lra).
    assert (Hpk : (p < k)%nat).
    { destruct (Nat.lt_ge_cases p k) as [|G]; [assumption|]. rewrite (Hz p) in Hmi by lia. lra. }
    assert (n <= k)%nat; [|lia]. destruct (Nat.le_gt_cases n k) as [|G]; [assumption|]. exfalso.
    specialize (Ha k ltac:(lia) G). rewrite Hz in Ha by lia. rewrite Rabs_R0 in Ha. unfold tiny in Ha. lra. }
  exists v. split; [exact E|]. now apply (integrate_nonneg fn nowarn v false).
Qed.

(** ** units *)
Lemma left_scal c fn : left_part (fun w => c * fn w) = c * left_part fn.
Proof. unfold left_part. rewrite <- Rsum_scal. apply Rsum_ext. intros. unfold Rdiv. ring. Qed.
(** any integrand in small enough units is refused *)
Theorem integrate_small fn nowarn : exists c0, 0 < c0 /\ forall c, 0 < c <= c0 -> integrate_analytic (fun w => c * fn w) nowarn = Err PlainException.
Proof.
  set (s := fun m L => Rsum (npts m) (fun i => Rabs (fn (rgrid L (npts m) i)))).
  assert (Hs : forall m L, 0 <= s m L) by (intros; apply Rsum_nonneg; intros; apply Rabs_pos).
  set (M := 1 + Rabs (left_part fn) + s 1%Z 1 + s 1%Z 20 + s 4%Z 80 + s 8%Z 160).
  pose proof (Hs 1%Z 1) as P1. pose proof (Hs 1%Z 20) as P2. pose proof (Hs 4%Z 80) as P3. pose proof (Hs 8%Z 160) as P4.
  pose proof (Rabs_pos (left_part fn)) as P0. assert (HM : 1 <= M) by (unfold M; lra).
  exists (1 / 10 ^ 6 / M). assert (Hc0 : 0 < 1 / 10 ^ 6 / M) by (apply Rmult_lt_0_compat; [lra|apply Rinv_0_lt_compat; lra]).
  split; [exact Hc0|]. intros c [Hc Hcl].
  assert (HcM : c * M <= 1 / 10 ^ 6).
  { apply Rle_trans with (1 / 10 ^ 6 / M * M); [apply Rmult_le_compat_r; lra|]. right. field. lra. }
  assert (Small : forall x, 0 <= x -> x <= M -> c * x < 1 / 10 ^ 5).
  { intros x H0 H1. assert (c * x <= c * M) by (apply Rmult_le_compat_l; lra). lra. }
  assert (NoC : forall m L n, In (m, L) attempts -> ~ converged (fun w => c * fn w) m L n).
  { intros m L n Hin [_ C]. rewrite (Rsum_ext _ _ (fun i => c * Rabs (fn (rgrid L (npts m) i)))) in C by (intros; rewrite Rabs_mult, (Rabs_pos_eq c) by lra; reflexivity).
    rewrite Rsum_scal in C. fold (s m L) in C. pose proof (Small (s m L) (Hs m L)) as Hq.
    cbn in Hin. repeat destruct Hin as [[= <- <-]|Hin]; try contradiction; unfold M in Hq; lra. }
  destruct (integrate_spec (fun w => c * fn w) nowarn) as [(m & L & n & Hin & _ & C & _)|[_ [[_ E]|[G _]]]].
  - now apply NoC in C.
  - exact E.
  - exfalso. rewrite left_scal in G. pose proof (Small (Rabs (left_part fn)) P0 ltac:(unfold M; lra)).
    pose proof (Rle_abs (left_part fn)). assert (c * left_part fn <= c * Rabs (left_part fn)) by (apply Rmult_le_compat_l; lra). lra.
Qed.

(** ** the warning *)
Lemma left_const c : left_part (fun _ => c) = c * (1 / 10 - 1 / 10 ^ 15).
Proof.
  unfold left_part. rewrite (Rsum_ext _ _ (fun i => c * (lgrid (S i) - lgrid i))) by (intros; field).
  rewrite Rsum_scal, Rsum_tele. destruct lgrid_ends as [-> ->]. reflexivity.
Qed.
(** "Integrated only from 1e-15 to 0.1" -- and to 160 as well *)
Theorem integrate_warned c : 1 / 1000 <= c -> exists v, integrate_analytic (fun _ => c) false = Ok (v, true) /\ 159 * c < v.
Proof.
  intros Hc. assert (St : forall L N n, stops (fun _ => c) L N n -> n = (N - 1)%nat).
  { intros L N n (p & _ & _ & _ & _ & _ & [H|H]); [|exact H]. exfalso. rewrite Rabs_pos_eq in H by lra. unfold tiny in H. lra. }
  destruct (integrate_spec (fun _ => c) false) as [(m & L & n & Hin & S & [C _] & _)|[_ [[H _]|(_ & n & S & E)]]].
  - exfalso. apply St in S. subst n. apply attempt_range in Hin. unfold npts in C. lia.
  - exfalso. rewrite left_const in H. lra.
  - apply St in S. subst n. eexists. split; [exact E|]. rewrite left_const. unfold right_part.
    rewrite (Rsum_ext _ _ (fun _ => c)) by (intros; field). rewrite Rsum_const. unfold rstep.
    assert (EN : INR (npts 8) = 80000) by (unfold npts; rewrite INR_IZR_INZ, Z2Nat.id by lia; reflexivity).
    assert (E2 : INR (npts 8 - 1 - 1) = 79998).
    { rewrite INR_IZR_INZ. unfold npts. replace (Z.of_nat (Z.to_nat (10000 * 8) - 1 - 1)) with 79998%Z by lia. reflexivity. }
    rewrite EN, E2. lra.
Qed.

(** ** the sign *)
(** a nonpositive integrand that vanishes at the first sample: only the left part is returned, with
    no warning, though minus the integrand is integrated *)
Theorem integrate_negative fn nowarn : (forall w, 0 < w -> fn w <= 0) -> fn (1 / 10 + 9 / 100000) = 0 ->
  1 / 10 ^ 5 < Rsum (npts 1) (fun i => Rabs (fn (rgrid 1 (npts 1) i))) -> integrate_analytic fn nowarn = Ok (left_part fn, false).
Proof.
  intros H H0 Hs. assert (EN : INR (npts 1) = 10000) by (unfold npts; rewrite INR_IZR_INZ, Z2Nat.id by lia; reflexivity).
  assert (E0 : rgrid 1 (npts 1) 0 = 1 / 10 + 9 / 100000) by (unfold rgrid, rstep; rewrite EN; cbn [INR]; field).
  assert (S0 : forall n, stops fn 1 (npts 1) n -> n = 0%nat).
  { intros n (p & Hp & Hn & Hmax & Hfirst & Ha & _).
    assert (p = 0)%nat as ->.
    { destruct p as [|p]; [reflexivity|]. exfalso. specialize (Hfirst 0%nat ltac:(lia)). rewrite E0, H0 in Hfirst.
      pose proof (rgrid_range 1 (npts 1) (S p) ltac:(lra) ltac:(lia)). pose proof (H (rgrid 1 (npts 1) (S p)) ltac:(lra)). lra. }
    destruct n as [|n]; [reflexivity|]. specialize (Ha 0%nat ltac:(lia) ltac:(lia)). rewrite E0, H0, Rabs_R0 in Ha. unfold tiny in Ha. lra. }
  destruct (integrate_spec fn nowarn) as [(m & L & n & Hin & S & C & B & E)|[B _]].
  - assert (L = 1 /\ m = 1%Z) as [-> ->].
    { destruct (Rlt_dec 1 L) as [G|G].
      - exfalso. destruct (B 1%Z 1) as (n' & S' & C'); [cbn; tauto|exact G|]. apply C'. apply S0 in S'. subst n'. split; [lia|exact Hs].
      - cbn in Hin. repeat destruct Hin as [[= <- <-]|Hin]; try contradiction; try (exfalso; lra). now split. }
    apply S0 in S. subst n. rewrite E. unfold right_part. cbn [Nat.sub Rsum]. do 2 f_equal. ring.
  - exfalso. destruct (B 1%Z 1) as (n' & S' & C'); [cbn; tauto|]. apply C'. apply S0 in S'. subst n'. split; [lia|exact Hs].
Qed.

(** ** the gap *)
(** whatever lies between 0.1 and the first sample of the right part is never seen *)
Theorem integrate_gap fn nowarn : (forall w, w <= 1 / 10 \/ 1 / 10 + 9 / 100000 <= w -> fn w = 0) -> integrate_analytic fn nowarn = Err PlainException.
Proof.
  intros H. assert (Hl : forall i, (i <= 999)%nat -> lgrid i <= 1 / 10).
  { intros i Hi. destruct lgrid_ends as [_ E]. rewrite <- E. clear - Hi. induction Hi as [|k Hk IH]; [lra|]. pose proof (lgrid_succ k). lra. }
  assert (L0 : left_part fn = 0).
  { unfold left_part. rewrite (Rsum_ext _ _ (fun _ => 0)); [rewrite Rsum_const; ring|]. intros i Hi.
    rewrite (H (lgrid i)), (H (lgrid (S i))) by (left; apply Hl; lia). field. }
  assert (R0 : forall m L i, In (m, L) attempts -> (i < npts m)%nat -> fn (rgrid L (npts m) i) = 0).
  { intros m L i Hin Hi. apply H. right. unfold rgrid. assert (1 <= INR (S i)) by (rewrite S_INR; pose proof (pos_INR i); lra).
    assert (9 / 100000 <= rstep L (npts m)).
    { unfold rstep, npts. cbn in Hin. repeat destruct Hin as [[= <- <-]|Hin]; try contradiction; rewrite INR_IZR_INZ, Z2Nat.id by lia; cbn [Z.mul Pos.mul Pos.add]; lra. }
    nra. }
  destruct (integrate_spec fn nowarn) as [(m & L & n & Hin & _ & [_ C] & _)|[_ [[_ E]|[G _]]]].
  - exfalso. rewrite (Rsum_ext _ _ (fun _ => 0)) in C by (intros; rewrite (R0 m L) by assumption; apply Rabs_R0). rewrite Rsum_const in C. lra.
  - exact E.
  - lra.
Qed.

(** ** what is cut off *)
(** nonincreasing after the greatest sample: at most the panel at the cut and [1e-15] per unit *)
Theorem integrate_cut fn L N n : 1 / 10 < L -> (forall w, 0 < w -> 0 <= fn w) -> stops fn L N n -> (1 <= n)%nat ->
  (forall i j, (n - 1 <= i)%nat -> (i <= j)%nat -> (j < N)%nat -> fn (rgrid L N j) <= fn (rgrid L N i)) ->
  (n < N - 1)%nat ->
  0 <= right_part fn L N N - right_part fn L N n <= rstep L N * fn (rgrid L N (n - 1)) / 2 + tiny * (L - 1 / 10).
Proof.
  intros HL Hf (p & Hp & Hn & _ & _ & _ & [Ht|Ht]) H1 Hmono HnN; [|lia].
  pose proof (rstep_pos L N HL ltac:(lia)) as Hs. unfold right_part. rewrite <- Rmult_minus_distr_l.
  set (g := fun i => (fn (rgrid L N i) + fn (rgrid L N (S i))) / 2).
  assert (Hpos : forall i, (i < N)%nat -> 0 <= fn (rgrid L N i)).
  { intros i Hi. apply Hf. pose proof (rgrid_range L N i HL Hi). lra. }
  assert (ED : Rsum (N - 1) g - Rsum (n - 1) g = Rsum (N - n) (fun i => g (n - 1 + i)%nat)).
  { replace (N - 1)%nat with (n - 1 + (N - n))%nat by lia. rewrite Rsum_app. ring. }
  rewrite ED. assert (Hnn : 0 <= fn (rgrid L N n)) by (apply Hpos; lia). rewrite Rabs_pos_eq in Ht by exact Hnn.
  assert (Hsmall : forall i, (n <= i)%nat -> (i < N)%nat -> fn (rgrid L N i) <= tiny).
  { intros i Hi HiN. pose proof (Hmono n i ltac:(lia) Hi HiN). lra. }
  split.
  - apply Rmult_le_pos; [lra|]. apply Rsum_nonneg. intros i Hi. unfold g. pose proof (Hpos (n - 1 + i)%nat ltac:(lia)). pose proof (Hpos (S (n - 1 + i)) ltac:(lia)). lra.
  - assert (Hb : Rsum (N - n) (fun i => g (n - 1 + i)%nat) <= fn (rgrid L N (n - 1)) / 2 + INR N * tiny).
    { replace (N - n)%nat with (S (N - n - 1)) by lia. rewrite Rsum_first. cbn [Nat.add].
      assert (T0 : 0 < tiny) by (unfold tiny; lra).
      assert (Rsum (N - n - 1) (fun i => g (n - 1 + S i)%nat) <= INR (N - n - 1) * tiny).
      { rewrite <- (Rsum_const (N - n - 1) tiny). apply Rsum_le. intros i Hi. unfold g.
        pose proof (Hsmall (n - 1 + S i)%nat ltac:(lia) ltac:(lia)). pose proof (Hsmall (S (n - 1 + S i)) ltac:(lia) ltac:(lia)). lra. }
      assert (g (n - 1 + 0)%nat <= fn (rgrid L N (n - 1)) / 2 + tiny / 2).
      { unfold g. rewrite Nat.add_0_r. replace (S (n - 1)) with n by lia. lra. }
      assert (INR (N - n - 1) * tiny + tiny / 2 <= INR N * tiny).
      { assert (INR (N - n - 1) + 1 <= INR N) by (rewrite <- S_INR; apply le_INR; lia). nra. }
      lra. }
    apply Rle_trans with (rstep L N * (fn (rgrid L N (n - 1)) / 2 + INR N * tiny)); [apply Rmult_le_compat_l; lra|].
    right. unfold rstep. field. apply not_0_INR. lia.
Qed.

(** ** admissibility constants *)
Lemma adm_cwt_inv psi v : adm_cwt psi = Ok v -> exists b, integrate_analytic (fun w => psi w * psi w / w) false = Ok (v, b).
Proof.
  unfold adm_cwt. generalize (integrate_analytic (fun w => psi w * psi w / w) false). intros [[u b]|e]; cbn [bind]; intros E; [|discriminate].
  injection E as ->. now exists b.
Qed.
Lemma adm_ssq_inv psi v : adm_ssq psi = Ok v -> exists b, integrate_analytic (fun w => psi w / w) false = Ok (v, b).
Proof.
  unfold adm_ssq. generalize (integrate_analytic (fun w => psi w / w) false). intros [[u b]|e]; cbn [bind]; intros E; [|discriminate].
  injection E as ->. now exists b.
Qed.
Theorem adm_cwt_sign psi v : adm_cwt psi = Ok v -> 0 <= v /\ ((forall w, 0 < w -> psi w <> 0) -> 0 < v).
Proof.
  intros E. apply adm_cwt_inv in E. destruct E as [b E].
  assert (Hi : forall w, 0 < w -> 0 < / w) by (intros; now apply Rinv_0_lt_compat).
  split.
  - apply (integrate_nonneg _ false v b) in E; [exact E|]. intros w Hw. specialize (Hi w Hw).
    apply Rmult_le_pos; [|lra]. pose proof (Rle_0_sqr (psi w)) as H. unfold Rsqr in H. exact H.
  - intros Hp. apply (integrate_positive _ false v b) in E; [exact E|]. intros w Hw. specialize (Hi w Hw). specialize (Hp w Hw).
    apply Rmult_lt_0_compat; [|lra]. apply Rsqr_pos_lt in Hp. exact Hp.
Qed.
Theorem adm_ssq_sign psi v : adm_ssq psi = Ok v ->
  ((forall w, 0 < w -> 0 <= psi w) -> 0 <= v) /\ ((forall w, 0 < w -> 0 < psi w) -> 0 < v).
Proof.
  intros E. apply adm_ssq_inv in E. destruct E as [b E].
  assert (Hi : forall w, 0 < w -> 0 < / w) by (intros; now apply Rinv_0_lt_compat).
  split; intros Hp.
  - apply (integrate_nonneg _ false v b) in E; [exact E|]. intros w Hw. specialize (Hi w Hw). specialize (Hp w Hw). apply Rmult_le_pos; lra.
  - apply (integrate_positive _ false v b) in E; [exact E|]. intros w Hw. specialize (Hi w Hw). specialize (Hp w Hw). apply Rmult_lt_0_compat; lra.
Qed.
Lemma integrate_ext f g nowarn : (forall w, f w = g w) -> integrate_analytic f nowarn = integrate_analytic g nowarn.
Proof.
  intros H. assert (Hm : forall l, map f l = map g l) by (intros; now apply map_ext).
  assert (He : forall L N, est_arr f L N = est_arr g L N) by (intros; unfold est_arr; now rewrite Hm).
  assert (Hs : forall l last, search f l last = search g l last).
  { induction l as [|[m L] l IH]; intros last; cbn [search]; [reflexivity|]. rewrite He. destruct (est_arr g L _) as [[[arr t] idx]|]; cbn [bind]; [|reflexivity].
    destruct (_ && _); [reflexivity|apply IH]. }
  unfold integrate_analytic, near_zero. now rewrite Hm, Hs.
Qed.
(** the sign of the wavelet does not matter to the one... *)
Theorem adm_cwt_even psi : adm_cwt (fun w => - psi w) = adm_cwt psi.
Proof. unfold adm_cwt. rewrite (integrate_ext _ (fun w => psi w * psi w / w)); [reflexivity|]. intros. f_equal. ring. Qed.
(** ...and does to the other: a box is integrated, minus the box is not *)
Definition box (w : R) : R := if Rle_dec (1 / 2) w then (if Rle_dec w (3 / 4) then 1 else 0) else 0.
Lemma box_off w : w < 1 / 2 \/ 3 / 4 < w -> box w = 0.
Proof. intros H. unfold box. destruct (Rle_dec (1 / 2) w); [|reflexivity]. destruct (Rle_dec w (3 / 4)); [lra|reflexivity]. Qed.
Lemma box_nonneg w : 0 <= box w.
Proof. unfold box. destruct (Rle_dec (1 / 2) w); [|lra]. destruct (Rle_dec w (3 / 4)); lra. Qed.
Lemma box_left c : left_part (fun w => c * box w / w) = 0.
Proof.
  unfold left_part. rewrite (Rsum_ext _ _ (fun _ => 0)); [rewrite Rsum_const; ring|]. intros i Hi.
  assert (Hl : forall i, (i <= 999)%nat -> lgrid i <= 1 / 10).
  { intros k Hk. destruct lgrid_ends as [_ E]. rewrite <- E. clear - Hk. induction Hk as [|k' Hk IH]; [lra|]. pose proof (lgrid_succ k'). lra. }
  pose proof (Hl i ltac:(lia)). pose proof (Hl (S i) ltac:(lia)). rewrite !box_off by lra. unfold Rdiv. ring.
Qed.
Lemma box_sum c : 1 <= Rabs c -> 1 / 10 ^ 5 < Rsum (npts 1) (fun i => Rabs (c * box (rgrid 1 (npts 1) i) / rgrid 1 (npts 1) i)).
Proof.
  intros Hc. assert (EN : INR (npts 1) = 10000) by (unfold npts; rewrite INR_IZR_INZ, Z2Nat.id by lia; reflexivity).
  set (k := Z.to_nat 5000). assert (Ek : INR (S k) = 5001) by (unfold k; rewrite INR_IZR_INZ; replace (Z.of_nat (S (Z.to_nat 5000))) with 5001%Z by lia; reflexivity).
  assert (Eg : rgrid 1 (npts 1) k = 55009 / 100000) by (unfold rgrid, rstep; rewrite EN, Ek; field).
  eapply Rlt_le_trans; [|apply (Rsum_pos_term _ (fun i => Rabs (c * box (rgrid 1 (npts 1) i) / rgrid 1 (npts 1) i)) k)].
  - rewrite Eg. unfold box. destruct (Rle_dec (1 / 2) (55009 / 100000)); [|lra]. destruct (Rle_dec (55009 / 100000) (3 / 4)); [|lra].
    unfold Rdiv at 2. rewrite !Rabs_mult, (Rabs_pos_eq 1), (Rabs_pos_eq (/ _)) by lra. lra.
  - unfold k, npts. lia.
  - intros. apply Rabs_pos.
Qed.
Theorem adm_ssq_odd : adm_ssq (fun w => - box w) = Ok 0 /\ exists v, adm_ssq box = Ok v /\ 0 < v.
Proof.
  split.
  - unfold adm_ssq. rewrite integrate_negative.
    + cbn [bind]. f_equal. rewrite <- (box_left (-1)). unfold left_part. apply Rsum_ext. intros. unfold Rdiv. ring.
    + intros w Hw. pose proof (box_nonneg w). assert (0 < / w) by now apply Rinv_0_lt_compat. unfold Rdiv. nra.
    + rewrite box_off by lra. unfold Rdiv. ring.
    + eapply Rlt_le_trans; [apply (box_sum (-1)); rewrite Rabs_left by lra; lra|]. right. apply Rsum_ext. intros. f_equal. unfold Rdiv. ring.
  - set (fn := fun w => box w / w). assert (Hf : forall w, 0 < w -> 0 <= fn w).
    { intros w Hw. pose proof (box_nonneg w). apply Rmult_le_pos; [assumption|]. left. now apply Rinv_0_lt_compat. }
    assert (EN : INR (npts 1) = 10000) by (unfold npts; rewrite INR_IZR_INZ, Z2Nat.id by lia; reflexivity).
    assert (Hs : 1 / 10 ^ 5 < Rsum (npts 1) (fun i => Rabs (fn (rgrid 1 (npts 1) i)))).
    { eapply Rlt_le_trans; [apply (box_sum 1); rewrite Rabs_pos_eq by lra; lra|]. right. apply Rsum_ext. intros. unfold fn. f_equal. unfold Rdiv. ring. }
    assert (Hz : forall i, (Z.to_nat 8000 <= i < npts 1)%nat -> fn (rgrid 1 (npts 1) i) = 0).
    { intros i Hi. unfold fn. rewrite box_off; [unfold Rdiv; ring|]. right. unfold rgrid, rstep. rewrite EN.
      assert (8000 <= INR i) by (rewrite INR_IZR_INZ; apply IZR_le; lia). rewrite S_INR. lra. }
    assert (St : forall n, stops fn 1 (npts 1) n -> (n <= Z.to_nat 8000)%nat /\ (1 <= n)%nat /\ 0 < right_part fn 1 (npts 1) n).
    { intros n (p & Hp & Hn & Hmax & Hfirst & Ha & He).
      set (k := Z.to_nat 4444).
      assert (Ek : INR (S k) = 4445) by (unfold k; rewrite INR_IZR_INZ; replace (Z.of_nat (S (Z.to_nat 4444))) with 4445%Z by lia; reflexivity).
      assert (Eg : rgrid 1 (npts 1) k = 50005 / 100000) by (unfold rgrid, rstep; rewrite EN, Ek; field).
      assert (Hk : 0 < fn (rgrid 1 (npts 1) k)).
      { rewrite Eg. unfold fn, box. destruct (Rle_dec (1 / 2) (50005 / 100000)); [|lra]. destruct (Rle_dec (50005 / 100000) (3 / 4)); [|lra]. lra. }
      pose proof (Hmax k ltac:(unfold k, npts; lia)) as Hmk.
      assert (Hp8 : (p < Z.to_nat 8000)%nat).
      { destruct (Nat.lt_ge_cases p (Z.to_nat 8000)) as [|G]; [assumption|]. rewrite (Hz p) in Hmk by lia. lra. }
      assert (Hpk : (k <= p)%nat).
      { destruct (Nat.le_gt_cases k p) as [|G]; [assumption|]. exfalso. assert (fn (rgrid 1 (npts 1) p) = 0); [|lra].
        unfold fn. rewrite box_off; [unfold Rdiv; ring|]. left. unfold rgrid, rstep. rewrite EN.
        assert (INR (S p) <= 4444) by (rewrite INR_IZR_INZ; apply IZR_le; unfold k in G; lia). lra. }
      assert (Hnp : (p < n)%nat).
      { destruct (Nat.eq_dec p n) as [<-|]; [|lia]. exfalso. destruct He as [He|He]; [|unfold npts in He; lia].
        rewrite Rabs_pos_eq in He by lra. clear - He Hmk Eg. rewrite Eg in Hmk. unfold fn at 1 in Hmk. unfold box in Hmk.
        destruct (Rle_dec (1 / 2) (50005 / 100000)); [|lra]. destruct (Rle_dec (50005 / 100000) (3 / 4)); [|lra]. unfold tiny in He. lra. }
      split; [|split; [lia|]].
      - destruct (Nat.le_gt_cases n (Z.to_nat 8000)) as [|G]; [assumption|]. exfalso.
        specialize (Ha (Z.to_nat 8000) ltac:(lia) G). rewrite Hz in Ha by lia. rewrite Rabs_R0 in Ha. unfold tiny in Ha. lra.
      - apply Rmult_lt_0_compat; [apply rstep_pos; [lra|unfold npts; lia]|].
        eapply Rlt_le_trans; [|apply (Rsum_pos_term _ (fun i => (fn (rgrid 1 (npts 1) i) + fn (rgrid 1 (npts 1) (S i))) / 2) (p - 1))].
        + replace (S (p - 1)) with p by (unfold k in Hpk; lia).
          pose proof (rgrid_range 1 (npts 1) (p - 1) ltac:(lra) ltac:(lia)). pose proof (Hf (rgrid 1 (npts 1) (p - 1)) ltac:(lra)). lra.
        + unfold k in Hpk. lia.
        + intros i Hi. pose proof (rgrid_range 1 (npts 1) i ltac:(lra) ltac:(lia)). pose proof (rgrid_range 1 (npts 1) (S i) ltac:(lra) ltac:(lia)).
          pose proof (Hf (rgrid 1 (npts 1) i) ltac:(lra)). pose proof (Hf (rgrid 1 (npts 1) (S i)) ltac:(lra)). lra. }
    assert (L0 : left_part fn = 0).
    { rewrite <- (box_left 1). unfold left_part. apply Rsum_ext. intros. unfold fn, Rdiv. ring. }
    unfold adm_ssq. fold fn. destruct (integrate_spec fn false) as [(m & L & n & Hin & S & C & B & E)|[B _]].
    + assert (L = 1 /\ m = 1%Z) as [-> ->].
      { destruct (Rlt_dec 1 L) as [G|G].
        - exfalso. destruct (B 1%Z 1) as (n' & S' & C'); [cbn; tauto|exact G|]. apply C'. apply St in S'. split; [lia|exact Hs].
        - cbn in Hin. repeat destruct Hin as [[= <- <-]|Hin]; try contradiction; try (exfalso; lra). now split. }
      rewrite E. cbn [bind]. eexists. split; [reflexivity|]. apply St in S. lra.
    + exfalso. destruct (B 1%Z 1) as (n' & S' & C'); [cbn; tauto|]. apply C'. apply St in S'. split; [lia|exact Hs].
Qed.
