(** Lemmas about the padding model. *)
From Coq Require Import Reals Lra Psatz.
From Coq Require Import ZifyBool ZifyNat.
From Verif Require Import Py Round Padding.
Local Open Scope Z_scope.
Ltac Zify.zify_post_hook ::= Z.div_mod_to_equations.

(** ** p2up *)
Lemma no_sqrt_odd_pow2 : forall f : nat, forall n, n * n <> 2 ^ (2 * Z.of_nat f + 1).
Proof.
  induction f as [|f IH]; intros n Hn.
  - change (2 ^ (2 * Z.of_nat 0 + 1)) with 2 in Hn.
    assert (n <= -2 \/ n = -1 \/ n = 0 \/ n = 1 \/ n >= 2) by lia. nia.
  - replace (2 * Z.of_nat (S f) + 1) with (2 + (2 * Z.of_nat f + 1)) in Hn by lia.
    rewrite Z.pow_add_r in Hn by lia. change (2 ^ 2) with 4 in Hn.
    destruct (Z.Even_or_Odd n) as [[m ->]|[m ->]].
    + apply (IH m). nia.
    + nia.
Qed.

Lemma round_log2_spec n : 1 <= n ->
  0 <= round_log2 n /\
  2 ^ (2 * round_log2 n) < 2 * (n * n) /\ n * n < 2 ^ (2 * round_log2 n + 1).
Proof.
  intros Hn. unfold round_log2.
  pose proof (Z.log2_nonneg n) as Hf.
  pose proof (Z.log2_spec n ltac:(lia)) as [Hlo Hhi].
  set (f := Z.log2 n) in *.
  assert (Hsq : 2 ^ (2 * f) = 2 ^ f * 2 ^ f) by (rewrite <- Z.pow_add_r by lia; f_equal; lia).
  assert (Hodd : 2 ^ (2 * f + 1) = 2 * 2 ^ (2 * f)) by (rewrite Z.pow_add_r by lia; lia).
  assert (Hs : 2 ^ Z.succ f = 2 * 2 ^ f) by (rewrite Z.pow_succ_r by lia; lia).
  assert (0 < 2 ^ f) by (apply Z.pow_pos_nonneg; lia).
  destruct (Z.ltb_spec (n * n) (2 ^ (2 * f + 1))) as [Hc|Hc].
  - split; [lia|split; nia].
  - assert (n * n <> 2 ^ (2 * f + 1)).
    { intros E. apply (no_sqrt_odd_pow2 (Z.to_nat f) n). rewrite Z2Nat.id by lia. exact E. }
    replace (2 * (f + 1)) with (1 + (2 * f + 1)) by lia.
    replace (1 + (2 * f + 1) + 1) with (2 + (2 * f + 1)) by lia.
    rewrite !(Z.pow_add_r 2 _ (2 * f + 1)) by lia. change (2 ^ 1) with 2. change (2 ^ 2) with 4.
    split; [lia|split; nia].
Qed.

Lemma ln2_pos : (0 < ln 2)%R.
Proof. rewrite <- ln_1; apply ln_increasing; lra. Qed.

Lemma ln_pow2 k : 0 <= k -> ln (IZR (2 ^ k)) = (IZR k * ln 2)%R.
Proof.
  intros Hk. pattern k. apply natlike_ind; [| |exact Hk].
  - rewrite Z.pow_0_r, ln_1; lra.
  - intros x Hx IH. rewrite Z.pow_succ_r by lia. rewrite mult_IZR.
    rewrite ln_mult; [|lra|apply IZR_lt; apply Z.pow_pos_nonneg; lia].
    rewrite IH, succ_IZR. lra.
Qed.

Theorem p2up_is_source n : 1 <= n -> p2up_of_log (log2R (IZR n)) n = p2up n.
Proof.
  intros Hn.
  assert (E : round_half_even (log2R (IZR n)) = round_log2 n).
  { destruct (round_log2_spec n Hn) as (Hk & H1 & H2).
    set (k := round_log2 n) in *.
    apply rhe_unique. unfold log2R.
    pose proof ln2_pos as Hl2.
    assert (Hn' : (0 < IZR n)%R) by (apply IZR_lt; lia).
    apply IZR_lt in H1, H2.
    apply ln_increasing in H1; [|apply IZR_lt; apply Z.pow_pos_nonneg; lia].
    apply ln_increasing in H2; [|apply IZR_lt; nia].
    rewrite ln_pow2 in H1, H2 by lia. 
    rewrite (mult_IZR 2 (n * n)), (mult_IZR n n), (mult_IZR 2 k) in H1.
    rewrite (mult_IZR n n), plus_IZR, (mult_IZR 2 k) in H2.
    rewrite !ln_mult in H1 by (try apply Rmult_lt_0_compat; lra).
    rewrite !ln_mult in H2 by (try apply Rmult_lt_0_compat; lra).
    assert (Ed : (ln (IZR n) / ln 2 * ln 2 = ln (IZR n))%R) by (field; lra).
    set (q := (ln (IZR n) / ln 2)%R) in *. rewrite <- Ed in H1, H2. nra. }
  unfold p2up_of_log, p2up. rewrite E. reflexivity.
Qed.

Lemma p2up_bounds n up n1 n2 : 1 <= n -> p2up n = (up, n1, n2) ->
  (exists k, 1 <= k /\ up = 2 ^ k) /\
  2 * (n * n) <= up * up <= 8 * (n * n) /\
  n < up /\
  n1 + n + n2 = up /\ 0 <= n2 <= n1 /\ n1 <= n2 + 1.
Proof.
  intros Hn E. unfold p2up in E.
  destruct (round_log2_spec n Hn) as (Hk & H1 & H2).
  set (k := round_log2 n) in *.
  assert (Hup : up = 2 ^ (1 + k)) by congruence.
  assert (Esq : up * up = 4 * 2 ^ (2 * k)).
  { rewrite Hup. rewrite <- Z.pow_add_r by lia.
    replace (1 + k + (1 + k)) with (2 + 2 * k) by lia.
    rewrite Z.pow_add_r by lia. reflexivity. }
  rewrite Z.pow_add_r in H2 by lia.
  assert (0 < up) by (rewrite Hup; apply Z.pow_pos_nonneg; lia).
  assert (Hlt : n < up) by nia.
  rewrite <- Hup in E.
  split; [exists (1 + k); split; [lia|exact Hup]|].
  split; [lia|]. split; [exact Hlt|].
  injection E as En1 En2. lia.
Qed.

(** Robustness: whatever [log2] returned, if it is off by less than 1/2 the padded
    length still exceeds [n] and the pads are nonnegative and balanced. *)
Lemma p2up_robust n L up n1 n2 : 1 <= n ->
  (Rabs (L - log2R (IZR n)) < 1/2)%R ->
  p2up_of_log L n = (up, n1, n2) ->
  (exists k, 0 <= k /\ up = 2 ^ k) /\
  n < up /\ n1 + n + n2 = up /\ 0 <= n2 <= n1 /\ n1 <= n2 + 1.
Proof.
  intros Hn HL E. unfold p2up_of_log in E.
  set (k := round_half_even L) in *.
  pose proof (rhe_near L) as Hr. fold k in Hr.
  pose proof ln2_pos as Hl2.
  assert (Hn' : (1 <= IZR n)%R) by (apply IZR_le; lia).
  apply Rabs_def2 in HL.
  assert (Hln : (0 <= ln (IZR n))%R).
  { rewrite <- ln_1. destruct Hn' as [Hn'|Hn']; [left; apply ln_increasing; lra|rewrite <- Hn'; lra]. }
  assert (Ed : (log2R (IZR n) * ln 2 = ln (IZR n))%R) by (unfold log2R; field; lra).
  set (q := log2R (IZR n)) in *.
  assert (Hq : (0 <= q)%R) by nra.
  assert (Hk : 0 <= k).
  { assert (-1 < k); [apply lt_IZR; lra|lia]. }
  assert (Hup : up = 2 ^ (1 + k)) by congruence.
  assert (Hlt : n < up).
  { apply lt_IZR. apply ln_lt_inv; [lra|apply IZR_lt; rewrite Hup; apply Z.pow_pos_nonneg; lia|].
    rewrite Hup, ln_pow2 by lia. rewrite plus_IZR. nra. }
  rewrite <- Hup in E.
  split; [exists (1 + k); split; [lia|exact Hup]|].
  split; [exact Hlt|].
  injection E as En1 En2. lia.
Qed.

Lemma p2up_not_next_power :
  exists n up n1 n2 m, 1 <= n /\ p2up n = (up, n1, n2) /\ m = 2 ^ 3 /\ n < m < up.
Proof. exists 6, 16, 5, 5, 8. vm_compute. repeat split; congruence. Qed.

(** The left pad is shorter than the signal except for lengths 1 and 3. *)
Lemma p2up_pad_short n up n1 n2 : 1 <= n -> p2up n = (up, n1, n2) ->
  n1 <= n /\ (n <> 1 -> n <> 3 -> n1 < n).
Proof.
  intros Hn E.
  destruct (Z_lt_le_dec n 8) as [Hs|Hs].
  - assert (n = 1 \/ n = 2 \/ n = 3 \/ n = 4 \/ n = 5 \/ n = 6 \/ n = 7) as Hc by lia.
    destruct Hc as [->|[->|[->|[->|[->|[->| ->]]]]]]; vm_compute in E;
      injection E as <- <- <-; lia.
  - destruct (p2up_bounds n _ _ _ Hn E) as (_ & Hb & Hlt & Hsum & Hn2 & Hn1). nia.
Qed.

(** ** pad widths *)
Lemma pad_widths_spec N pl n_up n1 n2 : 1 <= N ->
  (forall p, pl = Some p -> N <= p) ->
  pad_widths N pl = (n_up, n1, n2) ->
  n1 + N + n2 = n_up /\ 0 <= n2 <= n1 /\ n1 <= n2 + 1 /\
  n_up = match pl with Some p => p | None => fst (fst (p2up N)) end.
Proof.
  intros HN Hpl E. destruct pl as [p|]; simpl in E.
  - specialize (Hpl p eq_refl).
    destruct (Z.eqb_spec (Z.abs (p - N) mod 2) 0); injection E as <- <- <-; lia.
  - destruct (p2up_bounds N _ _ _ HN E) as (_ & _ & Hlt & Hsum & Hn2 & Hn1).
    rewrite E. simpl. lia.
Qed.

(** ** np_pad *)
Section NpPad.
Variable A : Type.
Variable zero : A.
Variable pt : padtype.
Variable x : list A.
Variables n1 n2 : Z.
Hypothesis Hx : x <> [].
Hypothesis H1 : 0 <= n1.
Hypothesis H2 : 0 <= n2.
Let N := Z.of_nat (length x).

Lemma HNpos : 1 <= N.
Proof. unfold N; destruct x; [congruence|simpl; lia]. Qed.

(** sample [i] (absolute position) of the padded signal *)
Definition pad_at (i : Z) : A :=
  match np_pad_index pt N (i - n1) with
  | Some k => nth (Z.to_nat k) x zero
  | None => zero
  end.

Lemma np_pad_ok : exists xp, np_pad zero pt x n1 n2 = Ok xp /\
  Z.of_nat (length xp) = n1 + N + n2 /\
  forall i, 0 <= i < n1 + N + n2 -> nth (Z.to_nat i) xp zero = pad_at i.
Proof.
  unfold np_pad. destruct (Z.ltb_spec n1 0); [lia|]. destruct (Z.ltb_spec n2 0); [lia|].
  simpl. eexists; split; [reflexivity|]. pose proof HNpos. fold N.
  split.
  - rewrite tab_length. lia.
  - intros i Hi. rewrite nth_tab by lia. unfold pad_at. rewrite Z2Nat.id by lia. reflexivity.
Qed.

Lemma pad_at_inside i : 0 <= i < N -> pad_at (n1 + i) = nth (Z.to_nat i) x zero.
Proof.
  intros Hi. unfold pad_at, np_pad_index. replace (n1 + i - n1) with i by lia.
  destruct (Z.leb_spec 0 i); [|lia]. destruct (Z.ltb_spec i N); [|lia]. reflexivity.
Qed.
End NpPad.

(** full specification of [padsignal] for the numpy modes *)
Lemma padsignal_np A (zero : A) x pt pl n_up n1 n2 :
  x <> [] -> pt <> PSymmetric ->
  (forall p, pl = Some p -> Z.of_nat (length x) <= p) ->
  pad_widths (Z.of_nat (length x)) pl = (n_up, n1, n2) ->
  exists xp, padsignal zero x pt pl = Ok (xp, n_up, n1, n2) /\
    Z.of_nat (length xp) = n_up /\
    forall i, 0 <= i < n_up -> nth (Z.to_nat i) xp zero = pad_at A zero pt x n1 i.
Proof.
  intros Hx Hpt Hpl E.
  assert (HN : 1 <= Z.of_nat (length x)) by (destruct x; [congruence|simpl; lia]).
  destruct (pad_widths_spec _ _ _ _ _ HN Hpl E) as (Hsum & Hn2 & Hn1 & Hup).
  destruct (np_pad_ok A zero pt x n1 n2 Hx ltac:(lia) ltac:(lia)) as (xp & Exp & Hlen & Hat).
  unfold padsignal. destruct x as [|x0 x']; [congruence|]. rewrite E.
  exists xp. split; [|split; [lia|intros i Hi; apply Hat; lia]].
  destruct pt; try congruence; rewrite Exp; reflexivity.
Qed.

Lemma skipn_firstn_eq A (l x : list A) (d : A) (n1 : Z) :
  0 <= n1 -> n1 + Z.of_nat (length x) <= Z.of_nat (length l) ->
  (forall i, (i < length x)%nat -> nth (Z.to_nat n1 + i) l d = nth i x d) ->
  pyslice l n1 (n1 + Z.of_nat (length x)) = x.
Proof.
  intros H0 H1 H. apply list_eq_nth with (d := d).
  - rewrite pyslice_length; lia.
  - intros i Hi. rewrite pyslice_length in Hi by lia.
    rewrite pyslice_nth by lia. apply H; lia.
Qed.

Theorem padsignal_np_recover A (zero : A) x pt pl :
  x <> [] -> pt <> PSymmetric ->
  (forall p, pl = Some p -> Z.of_nat (length x) <= p) ->
  exists xp n_up n1 n2, padsignal zero x pt pl = Ok (xp, n_up, n1, n2) /\
    Z.of_nat (length xp) = n_up /\
    n_up = match pl with Some p => p | None => fst (fst (p2up (Z.of_nat (length x)))) end /\
    n1 + Z.of_nat (length x) + n2 = n_up /\ 0 <= n2 <= n1 /\ n1 <= n2 + 1 /\
    pyslice xp n1 (n1 + Z.of_nat (length x)) = x.
Proof.
  intros Hx Hpt Hpl.
  destruct (pad_widths (Z.of_nat (length x)) pl) as [[n_up n1] n2] eqn:E.
  assert (HN : 1 <= Z.of_nat (length x)) by (destruct x; [congruence|simpl; lia]).
  destruct (pad_widths_spec _ _ _ _ _ HN Hpl E) as (Hsum & Hn2 & Hn1 & Hup).
  destruct (padsignal_np A zero x pt pl n_up n1 n2 Hx Hpt Hpl E) as (xp & Exp & Hlen & Hat).
  exists xp, n_up, n1, n2. split; [exact Exp|]. split; [exact Hlen|]. split; [exact Hup|].
  split; [lia|]. split; [lia|]. split; [lia|].
  apply skipn_firstn_eq with (d := zero); [lia|lia|].
  intros i Hi. replace (Z.to_nat n1 + i)%nat with (Z.to_nat (n1 + Z.of_nat i)) by lia.
  rewrite Hat by lia. rewrite pad_at_inside by lia. f_equal; lia.
Qed.

(** *** symmetric *)
Lemma pyslice_to_rev A (x : list A) n2 d : 0 <= n2 <= Z.of_nat (length x) ->
  Z.of_nat (length (pyslice_to (rev x) n2)) = n2 /\
  forall i, 0 <= i < n2 ->
   nth (Z.to_nat i) (pyslice_to (rev x) n2) d = nth (length x - 1 - Z.to_nat i) x d.
Proof.
  intros H. unfold pyslice_to. split.
  - rewrite pyslice_length; rewrite ?rev_length; lia.
  - intros i Hi. rewrite pyslice_nth; rewrite ?rev_length; try lia.
    rewrite nth_rev_lt by lia. f_equal; lia.
Qed.

Lemma pyslice_from_neg A (l : list A) n1 : 0 < n1 <= Z.of_nat (length l) ->
  pyslice_from l (- n1) = pyslice l (Z.of_nat (length l) - n1) (Z.of_nat (length l)).
Proof.
  intros H. unfold pyslice_from, pyslice, norm_bound.
  destruct (Z.ltb_spec (- n1) 0); [|lia].
  destruct (Z.ltb_spec (Z.of_nat (length l) - n1) 0); [lia|].
  destruct (Z.ltb_spec (Z.of_nat (length l)) 0); [lia|].
  f_equal; [lia|f_equal; lia].
Qed.

Lemma pyslice_from_rev A (x : list A) n1 d : 0 < n1 <= Z.of_nat (length x) ->
  Z.of_nat (length (pyslice_from (rev x) (- n1))) = n1 /\
  forall i, 0 <= i < n1 ->
   nth (Z.to_nat i) (pyslice_from (rev x) (- n1)) d = nth (Z.to_nat (n1 - 1 - i)) x d.
Proof.
  intros H. rewrite pyslice_from_neg by (rewrite rev_length; lia). rewrite rev_length. split.
  - rewrite pyslice_length; rewrite ?rev_length; lia.
  - intros i Hi. rewrite pyslice_nth; rewrite ?rev_length; try lia.
    rewrite nth_rev_lt by lia. f_equal; lia.
Qed.

Lemma padsignal_sym A (zero : A) x pl n_up n1 n2 :
  x <> [] -> (forall p, pl = Some p -> Z.of_nat (length x) <= p) ->
  pad_widths (Z.of_nat (length x)) pl = (n_up, n1, n2) ->
  0 < n1 <= Z.of_nat (length x) ->
  exists xp, padsignal zero x PSymmetric pl = Ok (xp, n_up, n1, n2) /\
    Z.of_nat (length xp) = n_up /\
    forall i, 0 <= i < n_up -> nth (Z.to_nat i) xp zero =
      if i <? n1 then nth (Z.to_nat (n1 - 1 - i)) x zero
      else if i <? n1 + Z.of_nat (length x) then nth (Z.to_nat (i - n1)) x zero
      else nth (Z.to_nat (n1 + 2 * Z.of_nat (length x) - 1 - i)) x zero.
Proof.
  intros Hx Hpl E Hn.
  assert (HN : 1 <= Z.of_nat (length x)) by (destruct x; [congruence|simpl; lia]).
  destruct (pad_widths_spec _ _ _ _ _ HN Hpl E) as (Hsum & Hn2 & Hn1 & Hup).
  destruct (@pyslice_from_rev A x n1 zero Hn) as (Hl1 & Ha1).
  destruct (@pyslice_to_rev A x n2 zero ltac:(lia)) as (Hl2 & Ha2).
  unfold padsignal. destruct x as [|x0 x']; [congruence|].
  remember (x0 :: x') as x. rewrite E.
  eexists; split; [reflexivity|].
  set (L := pyslice_from (rev x) (- n1)) in *. set (Rr := pyslice_to (rev x) n2) in *.
  split; [rewrite !app_length; lia|].
  intros i Hi.
  destruct (Z.ltb_spec i n1).
  - rewrite app_nth1 by lia. apply Ha1; lia.
  - rewrite app_nth2 by lia.
    replace (Z.to_nat i - length L)%nat with (Z.to_nat (i - n1)) by lia.
    destruct (Z.ltb_spec i (n1 + Z.of_nat (length x))).
    + rewrite app_nth1 by lia. reflexivity.
    + rewrite app_nth2 by lia.
      replace (Z.to_nat (i - n1) - length x)%nat
        with (Z.to_nat (i - n1 - Z.of_nat (length x))) by lia.
      rewrite Ha2 by lia. f_equal; lia.
Qed.

Theorem padsignal_sym_recover A (zero : A) x pl :
  x <> [] -> (forall p, pl = Some p ->
    Z.of_nat (length x) < p <= 3 * Z.of_nat (length x)) ->
  exists xp n_up n1 n2, padsignal zero x PSymmetric pl = Ok (xp, n_up, n1, n2) /\
    Z.of_nat (length xp) = n_up /\
    n_up = match pl with Some p => p | None => fst (fst (p2up (Z.of_nat (length x)))) end /\
    n1 + Z.of_nat (length x) + n2 = n_up /\ 0 <= n2 <= n1 /\ n1 <= n2 + 1 /\
    pyslice xp n1 (n1 + Z.of_nat (length x)) = x.
Proof.
  intros Hx Hpl.
  destruct (pad_widths (Z.of_nat (length x)) pl) as [[n_up n1] n2] eqn:E.
  assert (HN : 1 <= Z.of_nat (length x)) by (destruct x; [congruence|simpl; lia]).
  assert (Hpl' : forall p, pl = Some p -> Z.of_nat (length x) <= p)
    by (intros p Hp; specialize (Hpl p Hp); lia).
  destruct (pad_widths_spec _ _ _ _ _ HN Hpl' E) as (Hsum & Hn2 & Hn1 & Hup).
  assert (Hn : 0 < n1 <= Z.of_nat (length x)).
  { destruct pl as [p|].
    - specialize (Hpl p eq_refl). lia.
    - simpl in E. pose proof (p2up_bounds _ _ _ _ HN E) as (_ & _ & Hlt & _).
      pose proof (p2up_pad_short _ _ _ _ HN E). lia. }
  destruct (padsignal_sym A zero x pl n_up n1 n2 Hx Hpl' E Hn) as (xp & Exp & Hlen & Hat).
  exists xp, n_up, n1, n2. split; [exact Exp|]. split; [exact Hlen|]. split; [exact Hup|].
  split; [lia|]. split; [lia|]. split; [lia|].
  apply skipn_firstn_eq with (d := zero); [lia|lia|].
  intros i Hi. replace (Z.to_nat n1 + i)%nat with (Z.to_nat (n1 + Z.of_nat i)) by lia.
  rewrite Hat by lia.
  destruct (Z.ltb_spec (n1 + Z.of_nat i) n1); [lia|].
  destruct (Z.ltb_spec (n1 + Z.of_nat i) (n1 + Z.of_nat (length x))); [|lia].
  f_equal; lia.
Qed.

(** [x[::-1][-0:]] is the whole reversed signal. *)
Lemma padsignal_sym_nopad_refuted :
  exists (x : list Z) xp n_up n1 n2, x <> [] /\
    padsignal 0 x PSymmetric (Some (Z.of_nat (length x))) = Ok (xp, n_up, n1, n2) /\
    Z.of_nat (length xp) <> n_up /\ pyslice xp n1 (n1 + Z.of_nat (length x)) <> x.
Proof.
  exists [1; 2; 3], [3; 2; 1; 1; 2; 3], 3, 0, 0.
  vm_compute. repeat split; congruence.
Qed.

(** A pad longer than the signal comes out short. *)
Lemma padsignal_sym_long_refuted :
  exists (x : list Z) xp n_up n1 n2, x <> [] /\
    padsignal 0 x PSymmetric (Some 11) = Ok (xp, n_up, n1, n2) /\
    Z.of_nat (length xp) <> n_up /\ pyslice xp n1 (n1 + Z.of_nat (length x)) <> x.
Proof.
  exists [1; 2; 3], [3; 2; 1; 1; 2; 3; 3; 2; 1], 11, 4, 4.
  vm_compute. repeat split; congruence.
Qed.

(** General form of the same: exactly when the width is 0 or exceeds the signal. *)
Lemma pyslice_from_rev_long A (x : list A) n1 :
  Z.of_nat (length x) < n1 \/ n1 = 0 ->
  pyslice_from (rev x) (- n1) = rev x.
Proof.
  intros H. unfold pyslice_from, pyslice, norm_bound. rewrite rev_length.
  destruct (Z.ltb_spec (Z.of_nat (length x)) 0); [lia|].
  destruct (Z.ltb_spec (- n1) 0).
  - replace (Z.to_nat (Z.max 0 (- n1 + Z.of_nat (length x)))) with 0%nat by lia.
    simpl. apply firstn_all2. rewrite rev_length. lia.
  - replace (Z.to_nat (Z.min (- n1) (Z.of_nat (length x)))) with 0%nat by lia.
    simpl. apply firstn_all2. rewrite rev_length. lia.
Qed.

(** ** Extension rules, stated as symmetries of the padded signal itself *)
Section Ext.
Variable A : Type.
Variable zero : A.
Variable x : list A.
Variable n1 : Z.
Hypothesis Hx : x <> [].
Let N := Z.of_nat (length x).

Ltac unf := unfold pad_at, np_pad_index; fold N.

Lemma ext_zero i : i < n1 \/ n1 + N <= i -> pad_at A zero PZero x n1 i = zero.
Proof.
  intros H. unf.
  destruct (Z.leb_spec 0 (i - n1)), (Z.ltb_spec (i - n1) N); simpl; auto; lia.
Qed.

Lemma ext_replicate_left i : i < n1 -> pad_at A zero PReplicate x n1 i = nth 0 x zero.
Proof.
  intros H. unf.
  destruct (Z.leb_spec 0 (i - n1)); [lia|]. simpl.
  destruct (Z.ltb_spec (i - n1) 0); [|lia]. reflexivity.
Qed.

Lemma ext_replicate_right i : n1 + N <= i ->
  pad_at A zero PReplicate x n1 i = nth (length x - 1) x zero.
Proof.
  intros H. unf. pose proof (HNpos A x Hx) as HN. fold N in HN.
  destruct (Z.ltb_spec (i - n1) N); [lia|]. rewrite andb_false_r.
  destruct (Z.ltb_spec (i - n1) 0); [lia|]. f_equal. unfold N in *. lia.
Qed.

Lemma ext_wrap i : pad_at A zero PWrap x n1 (i + N) = pad_at A zero PWrap x n1 i.
Proof.
  unf. pose proof (HNpos A x Hx) as HN. fold N in HN.
  assert (E : (i + N - n1) mod N = (i - n1) mod N).
  { replace (i + N - n1) with ((i - n1) + 1 * N) by lia. apply Z.mod_add; lia. }
  assert (Hsm : forall m, 0 <= m < N -> m mod N = m) by (intros; apply Z.mod_small; lia).
  destruct (Z.leb_spec 0 (i + N - n1)), (Z.ltb_spec (i + N - n1) N),
    (Z.leb_spec 0 (i - n1)), (Z.ltb_spec (i - n1) N); cbn [andb]; try lia;
    rewrite ?E; try reflexivity; try (rewrite <- E, Hsm by lia; reflexivity);
    try (rewrite Hsm by lia; reflexivity).
Qed.

(** folded index of the reflect extension *)
Definition fold_idx (m : Z) : Z :=
  let p := m mod (2 * (N - 1)) in if p <? N then p else 2 * (N - 1) - p.

Lemma reflect_fold i : 2 <= N ->
  pad_at A zero PReflect x n1 i = nth (Z.to_nat (fold_idx (i - n1))) x zero.
Proof.
  intros HN. unf. unfold fold_idx. cbv zeta.
  destruct (Z.leb_spec 0 (i - n1)), (Z.ltb_spec (i - n1) N); cbn [andb];
    destruct (Z.eqb_spec N 1); try lia; try reflexivity.
  rewrite Z.mod_small by lia.
  destruct (Z.ltb_spec (i - n1) N); [reflexivity|lia].
Qed.

Lemma fold_neg m : 2 <= N -> fold_idx (- m) = fold_idx m.
Proof.
  intros HN. unfold fold_idx.
  destruct (Z.eq_dec (m mod (2 * (N - 1))) 0) as [E|E].
  - rewrite Z.mod_opp_l_z by lia. rewrite E. reflexivity.
  - rewrite Z.mod_opp_l_nz by lia.
    pose proof (Z.mod_pos_bound m (2 * (N - 1)) ltac:(lia)).
    set (p := m mod (2 * (N - 1))) in *.
    destruct (Z.ltb_spec (2 * (N - 1) - p) N), (Z.ltb_spec p N); lia.
Qed.

Lemma fold_period m : 2 <= N -> fold_idx (m + 2 * (N - 1)) = fold_idx m.
Proof.
  intros HN. unfold fold_idx.
  replace (m + 2 * (N - 1)) with (m + 1 * (2 * (N - 1))) by lia.
  rewrite Z.mod_add by lia. reflexivity.
Qed.

Lemma ext_reflect_left d : 2 <= N ->
  pad_at A zero PReflect x n1 (n1 - d) = pad_at A zero PReflect x n1 (n1 + d).
Proof.
  intros HN. rewrite !reflect_fold by lia.
  replace (n1 - d - n1) with (- d) by lia. replace (n1 + d - n1) with d by lia.
  rewrite fold_neg by lia. reflexivity.
Qed.

Lemma ext_reflect_right d : 2 <= N ->
  pad_at A zero PReflect x n1 (n1 + N - 1 + d) = pad_at A zero PReflect x n1 (n1 + N - 1 - d).
Proof.
  intros HN. rewrite !reflect_fold by lia.
  replace (n1 + N - 1 + d - n1) with (N - 1 + d) by lia.
  replace (n1 + N - 1 - d - n1) with (- (N - 1 + d) + 2 * (N - 1)) by lia.
  rewrite fold_period, fold_neg by lia. reflexivity.
Qed.
End Ext.

(** ** Extension rules as relations between samples of the returned array *)
Lemma padsignal_ext A (zero : A) x pt pl xp n_up n1 n2 :
  x <> [] -> pt <> PSymmetric ->
  (forall p, pl = Some p -> Z.of_nat (length x) <= p) ->
  padsignal zero x pt pl = Ok (xp, n_up, n1, n2) ->
  let N := Z.of_nat (length x) in
  let at_ i := nth (Z.to_nat i) xp zero in
  match pt with
  | PZero => forall i, 0 <= i < n_up -> i < n1 \/ n1 + N <= i -> at_ i = zero
  | PReplicate =>
      (forall i, 0 <= i < n1 -> at_ i = nth 0 x zero) /\
      (forall i, n1 + N <= i < n_up -> at_ i = nth (length x - 1) x zero)
  | PWrap => forall i, 0 <= i -> i + N < n_up -> at_ (i + N) = at_ i
  | PReflect => 2 <= N ->
      (forall d, 0 <= d -> 0 <= n1 - d -> n1 + d < n_up -> at_ (n1 - d) = at_ (n1 + d)) /\
      (forall d, 0 <= d -> 0 <= n1 + N - 1 - d -> n1 + N - 1 + d < n_up ->
                 at_ (n1 + N - 1 + d) = at_ (n1 + N - 1 - d))
  | PSymmetric => True
  end.
Proof.
  intros Hx Hpt Hpl E N at_.
  destruct (pad_widths (Z.of_nat (length x)) pl) as [[u m1] m2] eqn:Ew.
  destruct (padsignal_np A zero x pt pl u m1 m2 Hx Hpt Hpl Ew) as (xp' & Exp & Hlen & Hat).
  rewrite Exp in E. injection E as -> -> -> ->.
  assert (HN : 1 <= N) by (subst N; destruct x; [congruence|simpl; lia]).
  destruct (pad_widths_spec _ _ _ _ _ HN Hpl Ew) as (Hsum & Hn2 & Hn1 & Hup).
  fold N in Hsum. unfold at_. destruct pt.
  - intros i Hi Ho. rewrite Hat by lia. apply ext_zero; auto.
  - intros H2; split; intros d Hd Hd1 Hd2; rewrite !Hat by lia.
    + apply ext_reflect_left; auto.
    + apply (ext_reflect_right A zero x n1 d H2).
  - exact I.
  - split; intros i Hi; rewrite Hat by lia.
    + apply ext_replicate_left; lia.
    + apply ext_replicate_right; auto. fold N. lia.
  - intros i Hi Hi2. rewrite !Hat by lia. apply ext_wrap; auto.
Qed.

Lemma padsignal_sym_ext A (zero : A) x pl xp n_up n1 n2 :
  x <> [] ->
  (forall p, pl = Some p -> Z.of_nat (length x) < p <= 3 * Z.of_nat (length x)) ->
  padsignal zero x PSymmetric pl = Ok (xp, n_up, n1, n2) ->
  let N := Z.of_nat (length x) in
  let at_ i := nth (Z.to_nat i) xp zero in
  (forall d, 0 <= d < n1 -> at_ (n1 - 1 - d) = at_ (n1 + d)) /\
  (forall d, 0 <= d < n2 -> at_ (n1 + N + d) = at_ (n1 + N - 1 - d)).
Proof.
  intros Hx Hpl E N at_.
  destruct (pad_widths (Z.of_nat (length x)) pl) as [[u m1] m2] eqn:Ew.
  assert (HN : 1 <= Z.of_nat (length x)) by (destruct x; [congruence|simpl; lia]).
  assert (Hpl' : forall p, pl = Some p -> Z.of_nat (length x) <= p)
    by (intros p Hp; specialize (Hpl p Hp); lia).
  destruct (pad_widths_spec _ _ _ _ _ HN Hpl' Ew) as (Hsum & Hn2 & Hn1 & Hup).
  assert (Hn : 0 < m1 <= Z.of_nat (length x)).
  { destruct pl as [p|].
    - specialize (Hpl p eq_refl). lia.
    - simpl in Ew. pose proof (p2up_bounds _ _ _ _ HN Ew) as (_ & _ & Hlt & _).
      pose proof (p2up_pad_short _ _ _ _ HN Ew). lia. }
  destruct (padsignal_sym A zero x pl u m1 m2 Hx Hpl' Ew Hn) as (xp' & Exp & Hlen & Hat).
  rewrite Exp in E. injection E as -> -> -> ->. fold N in Hsum, Hn, Hat.
  unfold at_. split; intros d Hd; rewrite !Hat by lia.
  - destruct (Z.ltb_spec (n1 - 1 - d) n1); [|lia].
    destruct (Z.ltb_spec (n1 + d) n1); [lia|].
    destruct (Z.ltb_spec (n1 + d) (n1 + N)); [|lia]. f_equal; lia.
  - destruct (Z.ltb_spec (n1 + N + d) n1); [lia|].
    destruct (Z.ltb_spec (n1 + N + d) (n1 + N)); [lia|].
    destruct (Z.ltb_spec (n1 + N - 1 - d) n1); [lia|].
    destruct (Z.ltb_spec (n1 + N - 1 - d) (n1 + N)); [|lia]. f_equal; lia.
Qed.

(** Torch inputs (the GPU path): whatever it returns is what the numpy path returns,
    and with the default length it never raises for zero padding. *)
Lemma padsignal_torch_agrees A (zero : A) x pt pl r :
  padsignal_torch zero x pt pl = Ok r -> padsignal zero x pt pl = Ok r.
Proof.
  unfold padsignal_torch, padsignal. destruct x as [|a x]; [discriminate|].
  destruct (pad_widths _ pl) as [[u m1] m2]. destruct pt; try discriminate; auto.
  destruct (_ && _); [auto|discriminate].
Qed.

(** numpy and torch reflect differ only by torch raising; it raises for lengths 1 and 3
    with the default pad. *)
Lemma padsignal_torch_default A (zero : A) x pt :
  x <> [] -> length x <> 1%nat -> length x <> 3%nat -> pt = PZero \/ pt = PReflect ->
  exists r, padsignal_torch zero x pt None = Ok r.
Proof.
  intros Hx H1 H3 Hpt.
  assert (HN : 1 <= Z.of_nat (length x)) by (destruct x; [congruence|simpl; lia]).
  assert (Hnp : pt <> PSymmetric) by (destruct Hpt; subst; discriminate).
  destruct (pad_widths (Z.of_nat (length x)) None) as [[u m1] m2] eqn:Ew.
  destruct (padsignal_np A zero x pt None u m1 m2 Hx Hnp ltac:(discriminate) Ew)
    as (xp & Exp & _).
  pose proof (p2up_bounds _ _ _ _ HN Ew) as (_ & _ & Hlt & Hs & Hn2 & Hn1).
  pose proof (p2up_pad_short _ _ _ _ HN Ew) as (_ & Hsh).
  exists (xp, u, m1, m2). unfold padsignal_torch. unfold padsignal in Exp.
  destruct x as [|a x]; [congruence|]. remember (a :: x) as l. rewrite Ew in Exp |- *.
  destruct Hpt; subst pt; [exact Exp|].
  destruct (Z.ltb_spec m1 (Z.of_nat (length l))); [|lia].
  destruct (Z.ltb_spec m2 (Z.of_nat (length l))); [|lia]. exact Exp.
Qed.
