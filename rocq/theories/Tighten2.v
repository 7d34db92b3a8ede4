(** More sharper forms found by editing the model (seeded/LOG.jsonl). *)
From Coq Require Import Reals Lra Lia List.
Import ListNotations.
From Verif Require Import Py Chirp Signals.
Local Open Scope R_scope.

(** how far apart the two chirps' frequencies (in radians per second) are *)
Definition apart (p : par_kind) (N : Z) (f1 f2 : R) : Prop :=
  match p with ParL => f2 = f1 + 2 * PI * (IZR N / 10) | ParE => f2 = 1.5 * f1 | ParH => f2 = 3 * f1 end.

Lemma lchirp_shift tmin tmax a b d t : tmin <> tmax -> snd (lchirp tmin tmax (a + d) (b + d)) t = snd (lchirp tmin tmax a b) t + 2 * PI * d.
Proof. intros H. cbn. field. lra. Qed.
Lemma hchirp_scale tmin tmax a b r t : tmin <> tmax -> a <> 0 -> b <> 0 -> a <> b -> 0 < r -> snd (hchirp tmin tmax (r * a) (r * b)) t = r * snd (hchirp tmin tmax a b) t.
Proof.
  intros H Ha Hb Hab Hr. unfold hchirp. cbn [snd].
  replace ((r * a) ^ 3 * (r * b) ^ 3 * (tmin - tmax) ^ 4) with ((r ^ 3) ^ 2 * (a ^ 3 * b ^ 3 * (tmin - tmax) ^ 4)) by ring.
  rewrite sqrt_mult_alt by apply pow2_ge_0. rewrite sqrt_pow2 by (apply pow_le; lra). set (q := sqrt _).
  replace (r * a - r * b) with (r * (a - b)) by ring. assert (a - b <> 0) by lra. assert (tmin - tmax <> 0) by lra. assert (r <> 0) by lra.
  match goal with |- context [?n1 / (r * a * (r * b) * ?d * ?e)] => replace (n1 / (r * a * (r * b) * d * e)) with ((q + a ^ 2 * b * tmin * (tmin - tmax) + a * b ^ 2 * tmax * (tmax - tmin)) / (a * b * (a - b) * (tmin - tmax))) by (field; repeat split; assumption) end.
  match goal with |- context [?n1 / (r * (a - b)) ^ 2] => replace (n1 / (r * (a - b)) ^ 2) with (r * ((2 * q + a ^ 2 * b * (tmin - tmax) ^ 2 + a * b ^ 2 * (tmin - tmax) ^ 2) / (a - b) ^ 2)) by (field; repeat split; assumption) end.
  unfold Rdiv. ring.
Qed.
Lemma echirp_scale tmin tmax a b r t c1 c2 : tmin <> tmax -> 0 < a -> 0 < b -> 0 < r -> echirp tmin tmax a b = Ok c1 -> echirp tmin tmax (r * a) (r * b) = Ok c2 -> snd c2 t = r * snd c1 t.
Proof.
  intros H Ha Hb Hr. unfold echirp. destruct (Req_EM_T tmax 0) as [E|E]; [discriminate|]. intros E1 E2. injection E1 as <-. injection E2 as <-. cbn [snd].
  set (A := Rpower (Rpower a tmax / Rpower b tmin) (1 / (tmax - tmin))).
  assert (PA : 0 < A) by apply exp_pos.
  assert (EA : Rpower (Rpower (r * a) tmax / Rpower (r * b) tmin) (1 / (tmax - tmin)) = r * A).
  { rewrite <- !Rpower_mult_distr by assumption. unfold Rdiv at 1.
    replace (Rpower r tmax * Rpower a tmax * / (Rpower r tmin * Rpower b tmin)) with ((Rpower r tmax * Rpower r (- tmin)) * (Rpower a tmax / Rpower b tmin)).
    2:{ rewrite Rpower_Ropp. unfold Rdiv. rewrite Rinv_mult. ring. }
    rewrite <- Rpower_plus, <- Rpower_mult_distr, Rpower_mult by (try apply exp_pos; apply Rdiv_lt_0_compat; apply exp_pos).
    replace ((tmax + - tmin) * (1 / (tmax - tmin))) with 1 by (field; lra). rewrite Rpower_1 by exact Hr. reflexivity. }
  rewrite EA.
  replace (Rpower (r * b) (1 / tmax) * Rpower (1 / (r * A)) (1 / tmax)) with (Rpower b (1 / tmax) * Rpower (1 / A) (1 / tmax)).
  - ring.
  - rewrite !Rpower_mult_distr; try (apply Rdiv_lt_0_compat; nra); try nra. f_equal. field. split; lra.
Qed.

(** with the second chirp's frequencies left out, the two stay the same distance apart *)
Theorem par_parallel p N f0 fmin1 fmax1 a1 b1 a2 b2 tmin tmax c1 c2 t : tmin <> tmax ->
  par_freqs p N f0 fmin1 fmax1 None None = (a1, b1, a2, b2) ->
  (forall f1, fmax1 = Some f1 -> match p with ParL => f1 + IZR N / 10 | ParE => 1.5 * f1 | ParH => 3 * f1 end <= IZR N / 2) ->
  (p = ParL \/ (0 < a1 /\ 0 < b1 /\ a1 <> b1)) ->
  par_fn p tmin tmax a1 b1 = Ok c1 -> par_fn p tmin tmax a2 b2 = Ok c2 -> apart p N (snd c1 t) (snd c2 t).
Proof.
  intros Ht Ef Hcap Hpos E1 E2.
  assert (R : match p with ParL => a2 = a1 + IZR N / 10 /\ b2 = b1 + IZR N / 10 | ParE => a2 = 1.5 * a1 /\ b2 = 1.5 * b1 | ParH => a2 = 3 * a1 /\ b2 = 3 * b1 end).
  { revert Ef. unfold par_freqs. cbn [or_default]. destruct fmax1 as [f1|]; intros Ef; injection Ef as <- <- <- <-.
    - specialize (Hcap f1 eq_refl). destruct p; cbn [next_up] in *; rewrite Rmin_right by lra; split; lra.
    - destruct p; cbn [next_up next_down]; split; lra. }
  clear Ef Hcap. destruct p; destruct R as [-> ->]; cbn [par_fn apart] in *.
  - unfold lchirp_fn in *. injection E1 as <-. injection E2 as <-. apply lchirp_shift. exact Ht.
  - destruct Hpos as [?|(P1 & P2 & P3)]; [discriminate|]. apply (echirp_scale tmin tmax a1 b1 1.5 t c1 c2); try assumption. lra.
  - destruct Hpos as [?|(P1 & P2 & P3)]; [discriminate|]. unfold hchirp_fn in *. injection E1 as <-. injection E2 as <-. apply hchirp_scale; lra.
Qed.
Lemma quad (a b c d a' b' c' d' : R) : a = a' -> b = b' -> c = c' -> d = d' -> (a, b, c, d) = (a', b', c', d').
Proof. congruence. Qed.
(** and the defaults themselves *)
Theorem par_defaults p N f0 : par_freqs p N f0 None None None None =
  match p with ParL => (f0, IZR N * 0.4, f0 + IZR N * 0.1, IZR N * 0.5) | ParE => (f0, IZR N / 3, 1.5 * f0, IZR N * 0.5) | ParH => (f0, IZR N / 6, 3 * f0, IZR N * 0.5) end.
Proof. unfold par_freqs. cbn [or_default]. destruct p; cbn [next_up next_down]; apply quad; lra. Qed.
Lemma par_parallel_case : exists a1 b1 a2 b2 c1 c2, par_freqs ParE 64 1 None (Some 20) None None = (a1, b1, a2, b2) /\ b2 = 30 /\
  par_fn ParE 0 1 a1 b1 = Ok c1 /\ par_fn ParE 0 1 a2 b2 = Ok c2 /\ forall t, snd c2 t = 1.5 * snd c1 t.
Proof.
  assert (E : par_freqs ParE 64 1 None (Some 20) None None = (1, 20, 1 * (3 / 2), Rmin (64 / 2) (20 * (3 / 2)))) by reflexivity.
  destruct (par_fn ParE 0 1 1 20) as [c1|] eqn:E1; [|cbn in E1; unfold echirp_fn, echirp in E1; destruct (Req_EM_T 1 0); [lra|discriminate]].
  destruct (par_fn ParE 0 1 (1 * (3 / 2)) (Rmin (64 / 2) (20 * (3 / 2)))) as [c2|] eqn:E2; [|cbn in E2; unfold echirp_fn, echirp in E2; destruct (Req_EM_T 1 0); [lra|discriminate]].
  do 6 eexists. split; [exact E|]. split; [rewrite Rmin_right by lra; lra|]. split; [exact E1|]. split; [exact E2|]. intros t.
  apply (par_parallel ParE 64 1 None (Some 20) _ _ _ _ 0 1 c1 c2 t ltac:(lra) E); try assumption; [|right; lra]. intros f1 H. injection H as <-. lra.
Qed.
