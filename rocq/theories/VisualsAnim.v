(** Proofs about visuals.py: scales and files of [wavelet_tf_anim], scale of [wavelet_tf]. *)
From Coq Require Import Reals Lra ZifyBool ZifyNat String Ascii DecimalString DecimalNat.
From Verif Require Import Py Round Cplx CplxProofs Freqs Search SearchProofs Scales SsqueezeProofs Visuals VisualsThms.
Local Open Scope R_scope.
Ltac Zify.zify_post_hook ::= Z.div_mod_to_equations.

(** ** Scales of the animation *)
Lemma last_nth (l : list R) : last l 0 = nth (length l - 1) l 0.
Proof. induction l as [|a [|b l] IH]; [reflexivity|reflexivity|]. cbn [last]. cbn [last] in IH. rewrite IH. cbn [length]. rewrite !Nat.sub_succ, !Nat.sub_0_r. reflexivity. Qed.
Definition nondec (l : list R) : Prop := forall i j, (i <= j < length l)%nat -> nth i l 0 <= nth j l 0.
Lemma nondec_app a b : nondec a -> nondec b -> (forall x y, In x a -> In y b -> x <= y) -> nondec (a ++ b)%list.
Proof.
  intros Ha Hb H i j [Hij Hj]. rewrite app_length in Hj. destruct (lt_dec j (length a)) as [L|L].
  - rewrite !app_nth1 by lia. apply Ha. lia.
  - rewrite (app_nth2 _ _ _ (n := j)) by lia. destruct (lt_dec i (length a)) as [L2|L2].
    + rewrite app_nth1 by lia. apply H; apply nth_In; lia.
    + rewrite app_nth2 by lia. apply Hb. lia.
Qed.
Lemma nondec_repeat x n : nondec (repeat x n).
Proof. intros i j [Hi Hj]. rewrite repeat_length in Hj. rewrite !(nth_indep _ 0 x), !nth_repeat by (rewrite repeat_length; lia). lra. Qed.
Lemma nondec_part l a n : nondec l -> nondec (firstn n (skipn a l)).
Proof.
  intros H i j [Hi Hj]. rewrite firstn_length, skipn_length in Hj. rewrite !nth_firstn_lt, !nth_skipn_add by lia. apply H. lia.
Qed.
Lemma in_part (l : list R) a n x : In x (firstn n (skipn a l)) -> exists i, (a <= i < a + n)%nat /\ (i < length l)%nat /\ nth i l 0 = x.
Proof.
  intros Hx. apply (In_nth _ _ 0) in Hx. destruct Hx as (i & Hi & E). rewrite firstn_length, skipn_length in Hi.
  rewrite nth_firstn_lt, nth_skipn_add in E by lia. exists (a + i)%nat. split; [lia|]. split; [lia|exact E].
Qed.
Lemma linspace_between a b n k : a <= b -> (2 <= n)%nat -> (k < n)%nat -> a <= nth k (linspace a b n) 0 <= b.
Proof.
  intros H Hn Hk. rewrite nth_linspace by lia. assert (E : INR (n - 1) = INR n - 1) by (rewrite minus_INR by lia; reflexivity).
  assert (2 <= INR n) by (replace 2 with (INR 2) by (cbn; lra); apply le_INR; exact Hn).
  assert (INR k <= INR n - 1) by (rewrite <- E; apply le_INR; lia). pose proof (pos_INR k). rewrite E.
  replace (INR k * ((b - a) / (INR n - 1))) with ((b - a) * (INR k / (INR n - 1))) by (field; lra).
  assert (0 <= INR k / (INR n - 1) <= 1).
  { split; [apply Rmult_le_pos; [assumption|left; apply Rinv_0_lt_compat; lra]|]. apply (Rmult_le_reg_r (INR n - 1)); [lra|]. unfold Rdiv. rewrite Rmult_assoc, Rinv_l by lra. lra. }
  nra.
Qed.
Lemma linspace_nondec a b n : a <= b -> (2 <= n)%nat -> nondec (linspace a b n).
Proof.
  intros H Hn i j [Hi Hj]. rewrite linspace_length in Hj. rewrite !nth_linspace by lia. assert (INR i <= INR j) by (apply le_INR; exact Hi).
  assert (0 < INR (n - 1)) by (apply lt_0_INR; lia). assert (0 <= (b - a) / INR (n - 1)) by (apply Rmult_le_pos; [lra|left; apply Rinv_0_lt_compat; assumption]). nra.
Qed.
Lemma linspace_last a b n : (2 <= n)%nat -> last (linspace a b n) 0 = b.
Proof.
  intros Hn. rewrite last_nth, linspace_length. rewrite nth_linspace by lia. assert (0 < INR (n - 1)) by (apply lt_0_INR; lia). field. lra.
Qed.
Lemma in_linspace a b n x : a <= b -> (2 <= n)%nat -> In x (linspace a b n) -> a <= x <= b.
Proof. intros H Hn Hx. apply (In_nth _ _ 0) in Hx. destruct Hx as (i & Hi & <-). rewrite linspace_length in Hi. apply linspace_between; assumption. Qed.
Lemma last_app_ne (a b : list R) : b <> [] -> last (a ++ b)%list 0 = last b 0.
Proof.
  intros Hb. rewrite !last_nth, app_length. assert (1 <= length b)%nat by (destruct b; [congruence|cbn; lia]). rewrite app_nth2 by lia. f_equal. lia.
Qed.
Lemma anim_rep na : (2 <= na)%nat -> let rep := Nat.max (Z.to_nat (Int_part (25 / 253 * INR na))) 1 in (1 <= rep)%nat /\ (2 * rep <= na)%nat.
Proof.
  intros H rep. unfold rep. destruct (Int_part_bounds (25 / 253 * INR na)) as [B1 B2]. set (z := Int_part _) in *.
  assert (IZR z <= 25 / 253 * INR na) by lra. rewrite INR_IZR_INZ in H0. assert (0 <= IZR (Z.of_nat na)) by (apply IZR_le; lia).
  assert (IZR (2 * z) <= IZR (Z.of_nat na)) by (rewrite mult_IZR; lra). apply le_IZR in H2. lia.
Qed.
Theorem anim_right sc : (2 <= length sc)%nat -> nondec sc ->
  exists l, anim_scales sc = Ok l /\ nondec l /\ nth 0 l 0 = nth 0 sc 0 /\ last l 0 = last sc 0 /\ (forall x, In x l -> nth 0 sc 0 <= x <= last sc 0).
Proof.
  intros Hl Hs. unfold anim_scales. set (na := length sc) in *. destruct (anim_rep na Hl) as [R1 R2]. set (rep := Nat.max _ 1) in *.
  destruct (Nat.eqb_spec na 0); [lia|]. destruct (Nat.eqb_spec na 1); [lia|]. eexists. split; [reflexivity|].
  set (a := nth 0 sc 0). set (b := nth rep sc 0). set (c := nth (na - rep) sc 0). set (d := nth (na - 1) sc 0).
  assert (Hd : last sc 0 = d) by (rewrite last_nth; reflexivity). rewrite Hd.
  assert (ab : a <= b) by (apply Hs; fold na; lia). assert (bc : b <= c) by (apply Hs; fold na; lia). assert (cd : c <= d) by (apply Hs; fold na; lia).
  rewrite linspace_last by lia. assert (E0 : nth 0 (linspace a b (rep * 4)) 0 = a) by (rewrite nth_linspace by lia; cbn [INR]; ring). rewrite E0.
  assert (IL : forall x, In x (repeat a 8 ++ linspace a b (rep * 4))%list -> a <= x <= b).
  { intros x Hx. apply in_app_or in Hx. destruct Hx as [Hx|Hx]; [apply repeat_spec in Hx; subst; lra|apply in_linspace in Hx; [exact Hx|exact ab|lia]]. }
  assert (IR : forall x, In x (linspace c d (rep * 3) ++ repeat d 6)%list -> c <= x <= d).
  { intros x Hx. apply in_app_or in Hx. destruct Hx as [Hx|Hx]; [apply in_linspace in Hx; [exact Hx|exact cd|lia]|apply repeat_spec in Hx; subst; lra]. }
  assert (IM : forall x, In x (firstn (na - rep - rep) (skipn rep sc)) -> b <= x <= c).
  { intros x Hx. apply in_part in Hx. destruct Hx as (i & Hi & Hi2 & <-). fold na in Hi2. split; apply Hs; fold na; lia. }
  split; [|split; [reflexivity|split]].
  - apply nondec_app; [apply nondec_app|apply nondec_app|].
    + apply nondec_repeat.
    + apply linspace_nondec; [exact ab|lia].
    + intros x y Hx Hy. apply repeat_spec in Hx. apply in_linspace in Hy; [subst; lra|exact ab|lia].
    + apply nondec_part. exact Hs.
    + apply nondec_app; [apply linspace_nondec; [exact cd|lia]|apply nondec_repeat|]. intros x y Hx Hy. apply repeat_spec in Hy. apply in_linspace in Hx; [subst; lra|exact cd|lia].
    + intros x y Hx Hy. apply IM in Hx. apply IR in Hy. lra.
    + intros x y Hx Hy. apply IL in Hx. apply in_app_or in Hy. destruct Hy as [Hy|Hy]; [apply IM in Hy|apply IR in Hy]; lra.
  - rewrite !last_app_ne; [reflexivity|..]; try discriminate. all: intros E; apply app_eq_nil in E; try (destruct E as [_ E]); try discriminate. apply app_eq_nil in E. destruct E. discriminate.
  - intros x Hx. apply in_app_or in Hx. destruct Hx as [Hx|Hx]; [apply IL in Hx; lra|]. apply in_app_or in Hx. destruct Hx as [Hx|Hx]; [apply IM in Hx|apply IR in Hx]; lra.
Qed.
Theorem anim_keeps sc l i : (2 <= length sc)%nat -> anim_scales sc = Ok l ->
  let rep := Nat.max (Z.to_nat (Int_part (25 / 253 * INR (length sc)))) 1 in (rep <= i < length sc - rep)%nat -> In (nth i sc 0) l.
Proof.
  intros Hl E rep Hi. unfold anim_scales in E. fold rep in E. destruct (Nat.eqb_spec (length sc) 0); [lia|]. destruct (Nat.eqb_spec (length sc) 1); [lia|].
  apply (f_equal (fun r => match r with Ok l => l | Err _ => [] end)) in E. cbv beta iota zeta in E. rewrite <- E. apply in_or_app. right. apply in_or_app. left.
  replace (nth i sc 0) with (nth (i - rep) (firstn (length sc - rep - rep) (skipn rep sc)) 0).
  - apply nth_In. rewrite firstn_length, skipn_length. lia.
  - rewrite nth_firstn_lt, nth_skipn_add by lia. f_equal. lia.
Qed.
Lemma anim_one : exists sc, length sc = 1%nat /\ anim_scales sc = Err TypeError.
Proof. exists [1]. split; reflexivity. Qed.

(** ** The scale of [wavelet_tf] *)
Lemma pick_sound fuel std lo hi : forall s s', pick_loop fuel std lo hi s = Ok s' -> lo < std s' < hi.
Proof.
  induction fuel as [|f IH]; intros s s' E; cbn in E.
  - destruct (Rlt_dec lo (std s)); [|discriminate]. destruct (Rlt_dec (std s) hi); [|discriminate]. injection E as <-. lra.
  - destruct (Rlt_dec lo (std s)).
    + destruct (Rlt_dec (std s) hi); [injection E as <-; lra|exact (IH _ _ E)].
    + exact (IH _ _ E).
Qed.
Theorem pick_scale_sound std N s0 s : pick_scale std N s0 = Ok s -> 65 * (INR N / 2048) < std s < 75 * (INR N / 2048).
Proof. apply pick_sound. Qed.
Definition proportional (std : R -> R) : Prop := exists c, 0 < c /\ forall s, std s = c * s.
Lemma pick_up fuel std lo hi : proportional std -> forall k s, (k <= fuel)%nat -> 0 < s -> lo < std s * (11 / 10) ^ k < hi -> exists s', pick_loop fuel std lo hi s = Ok s'.
Proof.
  intros (c & Hc & P). induction fuel as [|f IH]; intros k s Hk Hs H.
  - replace k with 0%nat in H by lia. rewrite pow_O, Rmult_1_r in H. cbn. destruct (Rlt_dec lo (std s)); [|lra]. destruct (Rlt_dec (std s) hi); [|lra]. eauto.
  - assert (Hp : 0 < std s) by (rewrite P; nra). assert (H1 : 1 <= (11 / 10) ^ k) by (apply pow_R1_Rle; lra). assert (std s < hi) by nra.
    cbn. destruct (Rlt_dec lo (std s)) as [L|L]; [destruct (Rlt_dec (std s) hi); [eauto|lra]|]. destruct (Rlt_dec hi (std s)); [lra|].
    destruct k as [|k]; [rewrite pow_O in H; lra|]. apply (IH k); [lia|lra|]. rewrite P in *. cbn [pow] in H. replace (c * (s * (11 / 10)) * (11 / 10) ^ k) with (c * s * (11 / 10 * (11 / 10) ^ k)) by ring. exact H.
Qed.
Lemma pick_down fuel std lo hi : proportional std -> forall k s, (k <= fuel)%nat -> 0 < s -> (forall j, (j < k)%nat -> std s / (11 / 10) ^ j <> hi) -> lo < std s / (11 / 10) ^ k < hi ->
  exists s', pick_loop fuel std lo hi s = Ok s'.
Proof.
  intros (c & Hc & P). induction fuel as [|f IH]; intros k s Hk Hs Hj H.
  - replace k with 0%nat in H by lia. rewrite pow_O in H. cbn. destruct (Rlt_dec lo (std s)); [|lra]. destruct (Rlt_dec (std s) hi); [|lra]. eauto.
  - assert (Hp : 0 < std s) by (rewrite P; nra). assert (H1 : 1 <= (11 / 10) ^ k) by (apply pow_R1_Rle; lra).
    assert (Hle : std s / (11 / 10) ^ k <= std s). { apply (Rmult_le_reg_r ((11 / 10) ^ k)); [lra|]. unfold Rdiv at 1. rewrite Rmult_assoc, Rinv_l by lra. nra. }
    cbn. destruct (Rlt_dec lo (std s)) as [L|L]; [|lra]. destruct (Rlt_dec (std s) hi); [eauto|]. destruct k as [|k]; [rewrite pow_O in H; lra|].
    pose proof (Hj 0%nat ltac:(lia)) as H0. rewrite pow_O in H0. destruct (Rlt_dec hi (std s)) as [G|G]; [|lra].
    assert (E : forall j, std (s / (11 / 10)) / (11 / 10) ^ j = std s / (11 / 10) ^ S j).
    { intros j. rewrite !P. cbn [pow]. assert (0 < (11 / 10) ^ j) by (apply pow_lt; lra). field. lra. }
    apply (IH k); [lia|lra| |rewrite E; exact H]. intros j Hjk. rewrite E. apply Hj. lia.
Qed.
Theorem pick_scale_found std N s0 k : proportional std -> 0 < s0 -> (k <= 101)%nat ->
  let lo := 65 * (INR N / 2048) in let hi := 75 * (INR N / 2048) in
  (lo < std s0 * (11 / 10) ^ k < hi \/ (lo < std s0 / (11 / 10) ^ k < hi /\ forall j, (j < k)%nat -> std s0 / (11 / 10) ^ j <> hi)) ->
  exists s, pick_scale std N s0 = Ok s /\ lo < std s < hi.
Proof.
  intros P Hs Hk lo hi H. assert (E : exists s, pick_scale std N s0 = Ok s).
  { destruct H as [H|[H Hj]]; [exact (pick_up 101 std lo hi P k s0 Hk Hs H)|exact (pick_down 101 std lo hi P k s0 Hk Hs Hj H)]. }
  destruct E as (s & E). exists s. split; [exact E|exact (pick_scale_sound _ _ _ _ E)].
Qed.
Lemma bounce lo hi : 0 < lo -> lo < hi -> forall n, pick_loop (2 * n + 1) (fun s => s) lo hi hi = Err ValueError.
Proof.
  intros Hlo Hhi. induction n as [|n IH].
  - cbn. destruct (Rlt_dec lo hi); [|lra]. destruct (Rlt_dec hi hi); [lra|]. destruct (Rlt_dec lo (hi * (11 / 10))); [|lra]. destruct (Rlt_dec (hi * (11 / 10)) hi); [lra|reflexivity].
  - replace (2 * S n + 1)%nat with (S (S (2 * n + 1))) by lia. cbn [pick_loop]. destruct (Rlt_dec lo hi); [|lra]. destruct (Rlt_dec hi hi); [lra|].
    destruct (Rlt_dec lo (hi * (11 / 10))); [|lra]. destruct (Rlt_dec (hi * (11 / 10)) hi); [lra|]. destruct (Rlt_dec hi (hi * (11 / 10))); [|lra].
    replace (hi * (11 / 10) / (11 / 10)) with hi by field. exact IH.
Qed.
Theorem pick_scale_stuck N : (1 <= N)%nat -> pick_scale (fun s => s) N (75 * (INR N / 2048)) = Err ValueError.
Proof. intros H. assert (0 < INR N) by (apply lt_0_INR; lia). unfold pick_scale. change 101%nat with (2 * 50 + 1)%nat. apply bounce; lra. Qed.
Lemma pick_scale_stuck_ex : exists std N s0, proportional std /\ 0 < s0 /\ (exists s, 65 * (INR N / 2048) < std s < 75 * (INR N / 2048)) /\ pick_scale std N s0 = Err ValueError.
Proof.
  exists (fun s => s), 1%nat, (75 * (INR 1 / 2048)). split; [exists 1; split; [lra|intros; ring]|]. split; [cbn; lra|].
  split; [exists (70 * (1 / 2048)); cbn; lra|]. apply pick_scale_stuck. lia.
Qed.

(** ** Files of the animation *)
Local Open Scope string_scope.
Lemma prefix_app p s : prefix p (p ++ s) = true.
Proof. induction p as [|c p IH]; [destruct s; reflexivity|]. cbn. destruct (ascii_dec c c); [exact IH|congruence]. Qed.
Lemma contains_app p s : contains p (p ++ s) = true.
Proof. destruct (p ++ s) eqn:E; cbn [contains]; rewrite <- E, prefix_app; reflexivity. Qed.
Lemma substring_all s n : (String.length s <= n)%nat -> substring 0 n s = s.
Proof. revert n; induction s as [|c s IH]; intros [|n] H; cbn in *; try reflexivity; [inversion H|]. apply le_S_n in H. rewrite (IH n H). reflexivity. Qed.
Lemma substring_app p s n : (String.length s <= n)%nat -> substring (String.length p) n (p ++ s) = s.
Proof. intros H. induction p as [|c p IH]; [apply substring_all; exact H|exact IH]. Qed.
Lemma length_app p s : String.length (p ++ s) = (String.length p + String.length s)%nat.
Proof. induction p; cbn; congruence. Qed.
Lemma prefix_digits p s : prefix p s = true -> all_chars is_digit s = true -> all_chars is_digit p = true.
Proof.
  revert s; induction p as [|c p IH]; intros [|d s] H A; cbn in *; try reflexivity; try discriminate.
  destruct (ascii_dec c d) as [ ->|]; [|discriminate]. apply andb_prop in A. destruct A as [A1 A2]. rewrite A1. cbn. exact (IH s H A2).
Qed.
Lemma drop_digits p s f : all_chars is_digit p = false -> all_chars is_digit s = true -> drop_all f p s = s.
Proof.
  intros Hp. revert s; induction f as [|f IH]; intros s Hs; [reflexivity|]. destruct s as [|c s]; [reflexivity|]. cbn [drop_all].
  destruct (prefix p (String c s)) eqn:E; [apply prefix_digits in E; congruence|]. cbn [all_chars] in Hs. apply andb_prop in Hs. rewrite IH by apply Hs. reflexivity.
Qed.
Lemma uint_digits d : all_chars is_digit (NilEmpty.string_of_uint d) = true.
Proof. induction d; cbn; auto. Qed.
Lemma str_nonempty n : str (S n) <> "".
Proof.
  unfold str. intros E. assert (H : NilEmpty.uint_of_string (NilEmpty.string_of_uint (Nat.to_uint (S n))) = NilEmpty.uint_of_string "") by (rewrite E; reflexivity).
  rewrite NilEmpty.usu in H. change (NilEmpty.uint_of_string "") with (Some Decimal.Nil) in H.
  assert (O : Nat.of_uint (Nat.to_uint (S n)) = S n) by apply Unsigned.of_to. assert (H2 : Nat.to_uint (S n) = Decimal.Nil) by congruence. rewrite H2 in O. discriminate.
Qed.
Lemma int_str n : int (str n) = Ok n.
Proof. unfold int, str. rewrite NilEmpty.usu, Unsigned.of_to. reflexivity. Qed.
Lemma max_num_ge name stems : forall mx m, max_num name stems mx = Ok m -> (mx <= m)%nat.
Proof.
  induction stems as [|p stems IH]; intros mx m E; cbn [max_num] in E; [injection E as <-; lia|].
  destruct (String.eqb (remove_all name p) ""); [exact (IH _ _ E)|]. destruct (int (remove_all name p)) as [k|e]; cbn [bind] in E; [|discriminate].
  apply IH in E. destruct (mx <? k)%nat eqn:L; lia.
Qed.
Lemma max_num_in name stems k p : In p stems -> remove_all name p = str (S k) -> forall mx m, max_num name stems mx = Ok m -> (S k <= m)%nat.
Proof.
  intros Hp R. induction stems as [|q stems IH]; [destruct Hp|]. intros mx m E. cbn [max_num] in E. destruct Hp as [ ->|Hp].
  - rewrite R in E. destruct (String.eqb_spec (str (S k)) "") as [X|_]; [apply str_nonempty in X; destruct X|]. rewrite int_str in E. cbn [bind] in E.
    apply max_num_ge in E. destruct (mx <? S k)%nat eqn:L; lia.
  - destruct (String.eqb (remove_all name q) ""); [exact (IH Hp _ _ E)|]. destruct (int (remove_all name q)) as [j|e]; cbn [bind] in E; [|discriminate]. exact (IH Hp _ _ E).
Qed.
Lemma remove_numbered name n : all_chars is_digit name = false -> remove_all name (name ++ str n) = str n.
Proof.
  intros H. unfold remove_all. destruct (String.eqb_spec name "") as [ ->|N]; [discriminate|]. destruct name as [|c name]; [congruence|].
  set (nm := String c name) in *. cbn [append]. change (String c (name ++ str n)) with (nm ++ str n). cbn [String.length append]. unfold nm at 1. cbn [append String.length].
  cbn [drop_all]. change (String c (name ++ str n)) with (nm ++ str n). rewrite prefix_app. rewrite substring_app by (rewrite length_app; lia). apply drop_digits; [exact H|apply uint_digits].
Qed.
Lemma path_eqb_refl p : path_eqb p p = true.
Proof. unfold path_eqb. rewrite !String.eqb_refl. reflexivity. Qed.
Theorem never_overwrites files sp q : all_chars is_digit (fst sp) = false -> unique_savepath files sp = Ok q -> ~ In q files.
Proof.
  intros Hd E Hin. unfold unique_savepath in E. destruct (existsb (path_eqb sp) files) eqn:X.
  - destruct (max_num (fst sp) _ 0) as [m|e] eqn:M; [|discriminate]. cbn [bind] in E. injection E as <-.
    assert (H : (S m <= m)%nat); [|lia]. replace (m + 1)%nat with (S m) in Hin by lia.
    apply (max_num_in (fst sp) (filter (contains (fst sp)) (map fst files)) m (fst sp ++ str (S m))) with (mx := 0%nat); [|apply remove_numbered; exact Hd|exact M].
    apply filter_In. split; [|apply contains_app]. apply in_map_iff. exists (fst sp ++ str (S m), snd sp). split; [reflexivity|exact Hin].
  - injection E as <-. assert (existsb (path_eqb sp) files = true); [|congruence]. apply existsb_exists. exists sp. split; [exact Hin|apply path_eqb_refl].
Qed.
Theorem savepath_shape files sp q : unique_savepath files sp = Ok q -> snd q = snd sp /\ (fst q = fst sp \/ exists n, (1 <= n)%nat /\ fst q = fst sp ++ str n).
Proof.
  intros E. unfold unique_savepath in E. destruct (existsb (path_eqb sp) files).
  - destruct (max_num (fst sp) _ 0) as [m|e] eqn:M; [|discriminate]. injection E as <-. split; [reflexivity|]. right. exists (m + 1)%nat. split; [lia|reflexivity].
  - injection E as <-. split; [reflexivity|left; reflexivity].
Qed.
Lemma digits_overwritten : exists files sp q, unique_savepath files sp = Ok q /\ In q files.
Proof. exists [("1", ".gif"); ("11", ".gif")], ("1", ".gif"), ("11", ".gif"). split; [vm_compute; reflexivity|right; left; reflexivity]. Qed.
Lemma neighbour_breaks : exists files sp, all_chars is_digit (fst sp) = false /\ In sp files /\ unique_savepath files sp = Err ValueError.
Proof. exists [("wavanim", ".gif"); ("wavanim_old", ".gif")], ("wavanim", ".gif"). split; [reflexivity|]. split; [left; reflexivity|vm_compute; reflexivity]. Qed.
Lemma savepath_case : unique_savepath [("wavanim", ".gif"); ("wavanim1", ".gif"); ("wavanim7", ".gif"); ("notes", ".txt")] ("wavanim", ".gif") = Ok ("wavanim8", ".gif").
Proof. vm_compute. reflexivity. Qed.
