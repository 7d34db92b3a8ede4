(** Theorems about [cwt_scalebounds] and scales given by name; the default wavelet. *)
From Coq Require Import Reals Lra ZifyBool ZifyNat.
From Verif Require Import Py Round Cplx CplxProofs Padding PaddingProofs Freqs ShiftProofs Squeeze BinProofs SqueezeThms3
  Scales ScaleThms Resol Search SearchProofs Wavelets WaveletProofs SearchGmw ScaleBounds ScaleBoundsProofs ScaleBoundsThms
  ScaleBoundsThms2.
Local Open Scope R_scope.

(** every argument the code goes on to use is set *)
Theorem bargs_set p a b : process_bargs p a = Ok b ->
  ba_cutoff b <> None /\
  (p = Some Maximal -> ba_loc b <> None /\ ba_amp b <> None) /\
  (p = None \/ p = Some Minimal -> ba_min b <> None /\ ba_max b <> None).
Proof.
  unfold process_bargs, or_z, or_r. destruct a as [mn mx cut loc amp].
  destruct p as [[| | |]|]; cbn [bind ba_min ba_max ba_cutoff ba_loc ba_amp].
  - intros E. injection E as <-. cbn. split; [discriminate|]. split; [|intros [|]; discriminate].
    intros _. split; [destruct loc as [[| |]|]; discriminate|]. destruct amp as [r|]; [destruct (Req_EM_T r 0)|]; discriminate.
  - intros E. injection E as <-. cbn. split; [discriminate|]. split; [discriminate|]. intros _. split; discriminate.
  - intros E. injection E as <-. cbn. split; [destruct cut; discriminate|]. split; [discriminate|]. intros [|]; discriminate.
  - discriminate.
  - destruct mn as [m|]; [destruct (Rle_dec m 0); [discriminate|]|]; cbn [bind];
      (destruct mx as [x|]; [destruct (Rlt_dec x _); [discriminate|]|]); cbn [bind];
      intros E; injection E as <-; cbn; (split; [destruct cut; discriminate|]);
      (split; [discriminate|]); intros _; split; discriminate.
Qed.
Theorem naive_bounds g N a pad fuel : cwt_scalebounds g N (Some Naive) a pad fuel = Some (Ok (1, Some (INR N))).
Proof. reflexivity. Qed.
Theorem maximal_overrides g N mn mx c mn' mx' c' loc amp pad fuel :
  cwt_scalebounds g N (Some Maximal) (BA mn mx c loc amp) pad fuel =
  cwt_scalebounds g N (Some Maximal) (BA mn' mx' c' loc amp) pad fuel.
Proof. reflexivity. Qed.
Theorem minimal_overrides g N a a' pad fuel :
  cwt_scalebounds g N (Some Minimal) a pad fuel = cwt_scalebounds g N (Some Minimal) a' pad fuel.
Proof. reflexivity. Qed.
Theorem none_is_minimal g N loc amp a pad fuel :
  cwt_scalebounds g N None (BA None None None loc amp) pad fuel = cwt_scalebounds g N (Some Minimal) a pad fuel.
Proof. reflexivity. Qed.
(** the components *)
Theorem bounds_parts g N p a pad fuel mn mx : p <> Some Naive ->
  cwt_scalebounds g N p a pad fuel = Some (Ok (mn, mx)) ->
  let M := if pad then Z.to_nat (fst (fst (p2up (Z.of_nat N)))) else N in
  let or_d o d := match o with Some c => c | None => d end in
  p <> Some PresetOther /\
  find_min_scale g (if match p with None => true | _ => false end then or_d (ba_cutoff a) (- (5 / 10)) else - (5 / 10)) fuel
    = Some (Ok mn) /\
  (p = Some Maximal -> exists ct pk, peak_of g fuel = Some (Ok (ct, pk)) /\
     find_max_scale g (Ok ct) M match ba_loc a with Some 0%Z => 2%Z | Some b => b | None => 2%Z end
       (if Req_EM_T (or_d (ba_amp a) 0) 0 then 1 else or_d (ba_amp a) 0) = Ok mx) /\
  (p = Some Minimal -> exists s, mx = Some s /\ find_max_scale_alt g M (6 / 10) (8 / 10) fuel = Some (Ok s)) /\
  (p = None -> exists s, mx = Some s /\
     find_max_scale_alt g M (or_d (ba_min a) (6 / 10)) (or_d (ba_max a) (8 / 10)) fuel = Some (Ok s)).
Proof.
  intros Hn E M or_d. unfold cwt_scalebounds in E. fold M in E. destruct a as [amn amx cut loc amp].
  unfold process_bargs in E. destruct p as [[| | |]|]; cbn [bind ba_min ba_max ba_cutoff ba_loc ba_amp or0] in E.
  - destruct (find_min_scale g _ fuel) as [[m|]|] eqn:Em; try discriminate. cbn [rbind] in E.
    destruct (peak_of g fuel) as [[[ct pk]|]|] eqn:Ep; try discriminate. cbn [rbind] in E.
    set (l := or_z loc _) in E. set (am := or_r amp _) in E.
    destruct (find_max_scale g (Ok ct) M _ _) as [x|] eqn:Ex; try discriminate. cbn [rbind] in E. injection E as -> ->.
    cbn [ba_cutoff ba_loc ba_amp]. split; [discriminate|]. split; [first [exact Em | reflexivity]|]. split; [intros _|split; discriminate].
    exists ct, pk. split; [auto|]. rewrite <- Ex. f_equal.
    + unfold l, or_z. destruct loc as [[| |]|]; reflexivity.
    + unfold am, or_r, or0, or_d. destruct amp as [r|]; [destruct (Req_EM_T r 0); reflexivity|].
      destruct (Req_EM_T 0 0); [reflexivity|lra].
  - destruct (find_min_scale g _ fuel) as [[m|]|] eqn:Em; try discriminate. cbn [rbind] in E.
    destruct (find_max_scale_alt g M _ _ fuel) as [[x|]|] eqn:Ex; try discriminate. cbn [rbind] in E. injection E as -> <-.
    cbn [ba_cutoff]. split; [discriminate|]. split; [first [exact Em | reflexivity]|]. split; [discriminate|]. split; [|discriminate].
    intros _. eauto.
  - contradiction.
  - discriminate.
  - cbn [ba_cutoff ba_min ba_max]. destruct amn as [m|]; [destruct (Rle_dec m 0); [discriminate|]|]; cbn [bind] in E;
      (destruct amx as [x|]; [destruct (Rlt_dec x _); [discriminate|]|]); cbn [bind or0 ba_cutoff ba_min ba_max] in E;
      (destruct cut as [c|]; unfold or0 in E;
      (match type of E with rbind ?r _ = _ => destruct r as [[y|]|] eqn:Em end; try discriminate; cbn [rbind] in E;
      match type of E with rbind (rbind ?r _) _ = _ => destruct r as [[z|]|] eqn:Ex end; try discriminate; cbn [rbind] in E;
      injection E as -> <-; split; [discriminate|]; split; [first [exact Em | reflexivity]|]; split; [discriminate|]; split; [discriminate|];
      intros _; eauto)).
Qed.
Theorem bad_preset g N a pad fuel : cwt_scalebounds g N (Some PresetOther) a pad fuel = Some (Err ValueError).
Proof. reflexivity. Qed.
Theorem bad_cutoffs g N mn mx c loc amp pad fuel r :
  let m := match mn with Some m => m | None => 6 / 10 end in
  let x := match mx with Some m => m | None => 8 / 10 end in
  m <= 0 \/ x <= m -> cwt_scalebounds g N None (BA mn mx c loc amp) pad fuel <> Some (Ok r).
Proof.
  intros m x H E. destruct r as [a b]. apply bounds_parts in E; [|discriminate]. cbn [ba_min ba_max] in E.
  destruct E as (_ & _ & _ & _ & E). destruct (E eq_refl) as (s & _ & E'). fold m x in E'.
  rewrite alt_invalid in E' by auto. discriminate.
Qed.
Theorem bad_cutoff_error g N mn mx c loc amp pad fuel :
  mn <= 0 \/ mx < mn -> cwt_scalebounds g N None (BA (Some mn) (Some mx) c loc amp) pad fuel = Some (Err ValueError).
Proof.
  intros H. unfold cwt_scalebounds, process_bargs. cbn [ba_min ba_max ba_cutoff ba_loc ba_amp].
  destruct (Rle_dec mn 0); [reflexivity|]. cbn [bind]. destruct (Rlt_dec mx mn); [reflexivity|lra].
Qed.
Theorem padded_bounds g N p a fuel : p <> Some Naive ->
  cwt_scalebounds g N p a true fuel = cwt_scalebounds g (Z.to_nat (fst (fst (p2up (Z.of_nat N))))) p a false fuel.
Proof. intros H. unfold cwt_scalebounds. destruct (process_bargs p a); [|reflexivity]. destruct p as [[| | |]|]; try reflexivity. contradiction. Qed.

(** ** signals of 3 to 5 samples: an empty range *)
Lemma p2up_8 N : (3 <= N <= 5)%nat -> Z.to_nat (fst (fst (p2up (Z.of_nat N)))) = 8%nat.
Proof. intros H. assert (N = 3 \/ N = 4 \/ N = 5)%nat as [-> | [-> | ->]] by lia; reflexivity. Qed.
Lemma short_peak g p fuel ct pk : one_peak g p -> (forall w, 0 <= g w) -> peak_of g fuel = Some (Ok (ct, pk)) ->
  first_peak (at_bin g (4 / PI * ct) 8) (8 / 2) 1.
Proof.
  intros HP Hg Ep. pose proof PI_RGT_0 as Hpi. pose proof (wp_pos g p fuel ct pk HP Ep) as W0.
  assert (F : forall k, at_bin g (4 / PI * ct) 8 k = absf g (INR k * ct)).
  { intros k. unfold at_bin, absf. rewrite Rabs_right by (pose proof (Hg (INR k * ct)); lra). f_equal.
    unfold omega. replace (INR 8) with 8 by (rewrite INR_IZR_INZ; reflexivity). field. lra. }
  pose proof (wp_pk g fuel ct pk Ep) as Hpk.
    assert (L0 : absf g (INR 0 * ct) < absf g (INR 1 * ct)).
    { destruct (peak_grid _ _ _ _ Ep) as (i0 & W & _ & _ & B).
      assert (J : (0 < i0)%nat) by (destruct i0; [cbn [INR] in W; lra|lia]).
      specialize (B O J). cbn [INR] in *. rewrite Rmult_0_l, Rmult_1_l, <- Hpk. replace (0 / 1000) with 0 in B by field. exact B. }
    assert (H2 : forall k, (2 <= k)%nat -> absf g (INR k * ct) <= absf g (INR 1 * ct)).
    { intros k Hk. change (INR 1) with 1. rewrite Rmult_1_l, <- Hpk.
      apply Rle_trans with (2 := right_1 g p fuel ct pk HP Ep). apply le_INR in Hk. cbn [INR] in Hk.
      assert (E1 : pt ct (10 * ct) 1 = ct + 1 / 1000) by (unfold pt; cbn [INR]; rewrite Rmin_l; lra).
      rewrite E1. pose proof (wp_close g p fuel ct pk HP Ep). destruct HP as (_ & _ & Hd).
      destruct (Req_dec (INR k * ct) (ct + 1 / 1000)) as [->|Hne]; [lra|]. left. apply Hd; [lra|].
      assert (ct + ct <= INR k * ct) by nra. lra. }
    split; [cbn; lia|]. split; intros k Hk; rewrite !F.
    - destruct k as [|[|k]]; [left; exact L0|apply Rle_refl|]. apply H2. lia.
    - destruct k; [exact L0|lia].
Qed.
Theorem maximal_short g p N a fuel mn mx : one_peak g p -> (forall w, 0 <= g w) -> (3 <= N <= 5)%nat ->
  ba_loc a = None -> ba_amp a = None ->
  cwt_scalebounds g N (Some Maximal) a true fuel = Some (Ok (mn, mx)) -> 0 <= mn /\ mx = Some 0.
Proof.
  intros HP Hg HN HL HA E. apply bounds_parts in E; [|discriminate]. destruct E as (_ & Em & E & _).
  destruct (E eq_refl) as (ct & pk & Ep & Ex). rewrite p2up_8, HL, HA in Ex by auto.
  destruct (Req_EM_T 0 0) as [_|]; [|lra].
  destruct (min_side _ _ _ _ Em) as (wp & _ & M & _). specialize (M ltac:(lra)). pose proof PI_RGT_0 as Hpi.
  split; [apply (Rmult_le_reg_r PI); lra|].
  pose proof (wp_pos g p fuel ct pk HP Ep) as W0. pose proof (short_peak g p fuel ct pk HP Hg Ep) as P.
  pose proof (max_scale_one g ct 8 ltac:(lia) ltac:(lra) 2 1 ltac:(cbn; lia) P ltac:(lia)) as Q.
  change (Z.of_nat 2) with 2%Z in Q. rewrite Q in Ex. injection Ex as <-. f_equal. cbn [Nat.sub INR]. field. lra.
Qed.

(** ** scales given by name *)
Theorem named_reach_nyquist g N st pr nv fds ds pad fuel l : pr <> Some Naive ->
  process_scales_str g N st pr nv fds ds pad fuel = Some (Ok l) ->
  exists wp mn mx, peak_of g fuel = Some (Ok (wp, Rabs (g wp))) /\
    cwt_scalebounds g N (split_preset st pr) (BA None None None None None) pad fuel = Some (Ok (mn, Some mx)) /\
    0 <= mn * PI <= wp /\
    (0 < mn < mx -> st = SLog ->
       nth 0 l 0 * PI <= wp /\ mn / Rpower 2 (1 / IZR nv) < nth 0 l 0 /\ mx / Rpower 2 (2 / IZR nv) < last l 0 < mx) /\
    (0 < mn < mx -> st = SLin ->
       nth 0 l 0 * PI <= wp /\ mn / Rpower 2 (1 / IZR nv) < nth 0 l 0 /\
       mx / Rpower 2 (1 / IZR nv) < last l 0 < mx * Rpower 2 (1 / IZR nv)) /\
    (0 < mn < mx -> st = SPiece -> (forall gr, fds gr <> Ok (Some 0%nat)) ->
       nth 0 l 0 * PI <= wp /\ mn / Rpower 2 (1 / IZR nv) < nth 0 l 0).
Proof.
  intros Hp E. unfold process_scales_str in E. destruct (Z.leb_spec nv 0) as [|Hnv]; [discriminate|].
  destruct (cwt_scalebounds _ _ _ _ _ _) as [[[mn mx]|]|] eqn:Eb; try discriminate. cbn [rbind] in E.
  destruct mx as [mx|]; [|discriminate].
  assert (Hsp : split_preset st pr <> Some Naive).
  { destruct pr as [q|]; [exact Hp|]. destruct st; discriminate. }
  pose proof (bounds_parts _ _ _ _ _ _ _ _ Hsp Eb) as (_ & Em & _).
  replace (if match split_preset st pr with None => true | _ => false end then _ else _) with (- (5 / 10)) in Em
    by (destruct (split_preset st pr); reflexivity).
  destruct (min_side _ _ _ _ Em) as (wp & Ep & M & _). specialize (M ltac:(lra)).
  exists wp, mn, mx. split; [auto|]. split; [reflexivity|]. split; [auto|].
  assert (V : 0 < mn < mx -> make_scales mn mx nv st fds ds = Ok l).
  { intros H. unfold make_scales_bounds, or_real in E. destruct (Req_EM_T mn 0); [lra|]. destruct (Req_EM_T mx 0); [lra|].
    injection E as E. exact E. }
  pose proof PI_RGT_0 as Hpi.
  assert (N0 : forall x, x <= mn -> x * PI <= wp).
  { intros x Hx. apply Rle_trans with (mn * PI); [|lra]. apply Rmult_le_compat_r; lra. }
  split; [|split].
  - intros H ->. specialize (V H). destruct (log_scales mn mx nv H ltac:(lia) fds ds) as (s & Es & _ & _ & A & B).
    rewrite V in Es. injection Es as <-. split; [apply N0; lra|]. lra.
  - intros H ->. specialize (V H). destruct (linear_scales mn mx nv fds ds H ltac:(lia)) as (s & Es & _ & A & B & _).
    rewrite V in Es. injection Es as <-. split; [apply N0; lra|]. lra.
  - intros H -> Hf. specialize (V H). destruct (log_scales mn mx nv H ltac:(lia) fds ds) as (s & Es & Hne & _ & A & _).
    unfold make_scales in V, Es. set (sc := pow2_arange _ _ nv) in *. injection Es as Es. rewrite <- Es in *.
    assert (L0 : nth 0 l 0 = nth 0 sc 0).
    { destruct (fds sc) as [[i|]|] eqn:Ef; cbn [bind] in V; [| |discriminate].
      - destruct (ds =? 0)%Z; [discriminate|]. destruct (ds <? 0)%Z; [discriminate|]. injection V as <-.
        destruct i as [|i]; [exfalso; exact (Hf sc Ef)|]. destruct sc as [|y sc']; [contradiction|]. reflexivity.
      - injection V as <-. reflexivity. }
    rewrite L0. split; [apply N0; lra|lra].
Qed.

(** ** the default wavelet, GMW(3, 60) *)
Lemma gmw_one_peak gamma beta g : 0 < gamma -> 0 < beta -> gmw_l1 gamma beta false = Ok g ->
  1 / 1000 <= Rpower (beta / gamma) (1 / gamma) -> one_peak g (Rpower (beta / gamma) (1 / gamma)).
Proof.
  intros Hg Hb E Hp. assert (A : forall x, absf g x = g x).
  { intros x. unfold absf. apply Rabs_right. pose proof (gmw_nonneg gamma beta g Hg Hb E x). lra. }
  split; [auto|]. split; intros x y; rewrite !A.
  - apply (gmw_up gamma beta g Hg Hb E).
  - destruct (gmw_l1_unimodal gamma beta g Hg Hb E) as [_ D]. apply D.
Qed.
Lemma root20 : 2 < Rpower (60 / 3) (1 / 3) < 3.
Proof.
  assert (R3 : Rpower (Rpower (60 / 3) (1 / 3)) 3 = 20).
  { rewrite Rpower_mult. replace (1 / 3 * 3) with 1 by field. rewrite Rpower_1; lra. }
  set (r := Rpower (60 / 3) (1 / 3)) in *. assert (P : 0 < r) by (apply exp_pos).
  replace 3 with (INR 3) in R3 at 1 by (cbn; lra). rewrite Rpower_pow in R3 by auto. cbn [pow] in R3. nra.
Qed.
Lemma gmw_default_found : exists g fuel wp pk, gmw_l1 3 60 false = Ok g /\
  one_peak g (Rpower (60 / 3) (1 / 3)) /\ (forall w, 0 <= g w) /\ g 0 = 0 /\
  peak_of g fuel = Some (Ok (wp, pk)) /\ 0 < pk /\ 1 < wp < 4.
Proof.
  pose proof (gmw_l1_ok 3 60 false ltac:(lra) ltac:(lra)) as E. set (g := fun w => _) in E.
  assert (HP : one_peak g (Rpower (60 / 3) (1 / 3))) by (pose proof root20; apply gmw_one_peak; auto; lra).
  destruct (peak_exists g _ HP) as (fuel & wp & pk & Ep); [pose proof root20; lra|].
  exists g, fuel, wp, pk. split; [auto|]. split; [auto|].
  split; [intros w; apply (gmw_nonneg 3 60 g ltac:(lra) ltac:(lra) E)|].
  destruct (gmw_l1_peaks 3 60 g ltac:(lra) ltac:(lra) E) as (_ & _ & P & Z). split; [apply Z; lra|]. split; [auto|].
  pose proof (wp_close g _ fuel wp pk HP Ep). pose proof root20.
  split; [|lra]. rewrite (wp_pk g fuel wp pk Ep). unfold absf. apply Rabs_pos_lt. apply Rgt_not_eq, P. lra.
Qed.
Theorem gmw_min_reversed : exists g fuel s1 s2, gmw_l1 3 60 false = Ok g /\
  find_min_scale g (-1) fuel = Some (Ok s1) /\ find_min_scale g (- (5 / 10)) fuel = Some (Ok s2) /\ s2 < s1.
Proof.
  destruct gmw_default_found as (g & fuel & wp & pk & E & HP & _ & G0 & Ep & Hpk & Hwp).
  destruct (min_left_strict g _ fuel wp pk HP Ep ltac:(lra)) as (s1 & s2 & A & B & D); auto.
  - unfold absf. rewrite G0. apply Rabs_R0.
  - exists g, fuel, s1, s2. auto.
Qed.
Theorem gmw_maximal_empty : exists g fuel mn mx, gmw_l1 3 60 false = Ok g /\
  cwt_scalebounds g 5 (Some Maximal) (BA None None None None None) true fuel = Some (Ok (mn, Some mx)) /\ mx < mn.
Proof.
  destruct gmw_default_found as (g & fuel & wp & pk & E & HP & Hg & G0 & Ep & Hpk & Hwp).
  assert (F0 : absf g 0 = 0) by (unfold absf; rewrite G0; apply Rabs_R0).
  assert (Rc : Rabs (- (5 / 10)) = 1 / 2) by (rewrite Rabs_left by lra; lra).
  destruct (min_left g _ fuel wp pk HP Ep (- (5 / 10))) as (j & Hj & Ej); [lra|lra|rewrite F0, Rc; lra|].
  pose proof PI_RGT_0 as Hpi.
  (* 'maximal' runs *)
  assert (Eb : exists mx, cwt_scalebounds g 5 (Some Maximal) (BA None None None None None) true fuel
                          = Some (Ok (pt 0 wp j / PI, mx))).
  { unfold cwt_scalebounds. cbn [process_bargs bind ba_cutoff ba_loc ba_amp or_z or_r or0]. rewrite Ej. cbn [rbind].
    rewrite Ep. cbn [rbind]. rewrite p2up_8 by lia.
    destruct (find_max_scale g (Ok wp) 8 2 1) as [mx|e] eqn:Ex; [cbn [rbind]; eauto|]. exfalso.
    destruct (max_scale_error g wp 8 ltac:(lia) 2 1 e ltac:(cbn; lia) Ex) as (_ & m & P & Q).
    destruct m as [|m]; [|specialize (Q O ltac:(lia)); destruct P as (_ & _ & P); specialize (P O ltac:(lia)); lra].
    destruct P as (_ & P & _). specialize (P 1%nat ltac:(cbn; lia)). unfold at_bin, omega in P. cbn [INR] in P.
    replace (4 / PI * wp * (2 * PI * 0 / (1 + 1 + 1 + 1 + 1 + 1 + 1 + 1))) with 0 in P by (field; lra).
    replace (4 / PI * wp * (2 * PI * 1 / (1 + 1 + 1 + 1 + 1 + 1 + 1 + 1))) with wp in P by (field; lra).
    rewrite G0 in P. pose proof (wp_pk g fuel wp pk Ep) as K. unfold absf in K. rewrite Rabs_right in K; [lra|].
    pose proof (Hg wp). lra. }
  destruct Eb as (mx & Eb).
  destruct (maximal_short g _ 5 (BA None None None None None) fuel _ mx HP Hg ltac:(lia) eq_refl eq_refl Eb) as [_ ->].
  exists g, fuel, (pt 0 wp j / PI), 0. split; [auto|]. split; [auto|].
  apply Rdiv_lt_0_compat; [|lra]. destruct Hj as (Hj1 & A & _).
  destruct (pt_range 0 wp j ltac:(lra)) as [[H|H] _]; [auto|]. exfalso.
  (* the peak's neighbourhood is closer than the start *)
  destruct (bracket (fun i => absf g (pt 0 wp i)) (pk / 2) (NS - 1)) as (i & Hi & B1 & B2).
  - cbv beta. rewrite pt_0, F0 by lra. lra.
  - cbv beta. rewrite (left_end g fuel wp pk Ep) by lra. rewrite <- (wp_pk g fuel wp pk Ep). lra.
  - nlia.
  - cbv beta in *. rewrite <- H, F0, Rc in A. pose proof (A (S i) ltac:(nlia)) as A1.
    pose proof (A (NS - 1)%nat ltac:(nlia)) as A2.
    rewrite (left_end g fuel wp pk Ep) in A2 by lra. rewrite <- (wp_pk g fuel wp pk Ep) in A2.
    rewrite (Rabs_left1 (0 - _)) in A1, A2 by lra. rewrite (Rabs_right (absf g (pt 0 wp (S i)) - _)) in A1 by lra.
    (* all values at or above half the peak would be the whole peak *)
    assert (T : absf g (pt 0 wp (S i)) = pk).
    { apply Rle_antisym; [|lra]. destruct (left_pt g fuel wp pk Ep (S i)) as [Q|[Q _]].
      - rewrite Q. rewrite <- (wp_pk g fuel wp pk Ep). lra.
      - destruct (Rle_lt_or_eq_dec (pt 0 wp (S i)) wp) as [L|L]; [apply pt_range; lra| |].
        + assert (L' : pt 0 wp (S i) < pt 0 wp (NS - 1)) by (rewrite (left_end g fuel wp pk Ep) by lra; exact L).
          apply (left_mono g _ fuel wp pk HP Ep) in L'. rewrite (left_end g fuel wp pk Ep) in L' by lra.
          rewrite <- (wp_pk g fuel wp pk Ep) in L'. lra.
        + rewrite L, <- (wp_pk g fuel wp pk Ep). lra. }
    pose proof (A i ltac:(nlia)) as A3. rewrite (Rabs_left1 (0 - _)) in A3 by lra.
    assert (Z0 : absf g (pt 0 wp i) = 0).
    { rewrite (Rabs_left1 (absf g (pt 0 wp i) - _)) in A3 by lra.
      pose proof (absf_nonneg g (pt 0 wp i)). lra. }
    (* so i = 0 and one step climbs from 0 to the peak *)
    destruct (gmw_l1_peaks 3 60 g ltac:(lra) ltac:(lra) E) as (_ & _ & P & _).
    assert (I0 : pt 0 wp i = 0).
    { destruct (pt_range 0 wp i ltac:(lra)) as [[H'|H'] _]; [|lra]. exfalso. specialize (P _ H').
      unfold absf in Z0. rewrite Rabs_right in Z0 by lra. lra. }
    pose proof (pt_step 0 wp i) as St.
    assert (L : pt 0 wp (S i) < pt 0 wp (NS - 1)) by (rewrite (left_end g fuel wp pk Ep) by lra; lra).
    apply (left_mono g _ fuel wp pk HP Ep) in L. rewrite (left_end g fuel wp pk Ep) in L by lra.
    rewrite <- (wp_pk g fuel wp pk Ep) in L. lra.
Qed.
(** a greater [bin_loc] need not give a lesser scale *)
Theorem gmw_loc_flat : exists g fuel ct pk, gmw_l1 3 60 false = Ok g /\ peak_of g fuel = Some (Ok (ct, pk)) /\
  find_max_scale g (Ok ct) 8 1 1 = Ok (Some 0) /\ find_max_scale g (Ok ct) 8 2 1 = Ok (Some 0).
Proof.
  destruct gmw_default_found as (g & fuel & wp & pk & E & HP & Hg & G0 & Ep & Hpk & Hwp).
  pose proof (short_peak g _ fuel wp pk HP Hg Ep) as P. exists g, fuel, wp, pk. split; [auto|]. split; [auto|].
  pose proof (max_scale_one g wp 8 ltac:(lia) ltac:(lra) 1 1 ltac:(cbn; lia) P ltac:(lia)) as Q1.
  pose proof (max_scale_one g wp 8 ltac:(lia) ltac:(lra) 2 1 ltac:(cbn; lia) P ltac:(lia)) as Q2.
  cbn [Nat.sub] in Q1, Q2. change (INR 0) with 0 in *. change (INR 1) with 1 in *. replace (INR 2) with 2 in Q2 by (cbn; lra).
  unfold Rdiv in Q1 at 1. unfold Rdiv in Q2 at 1. rewrite Rmult_0_r, Rmult_0_l in Q1. rewrite Rmult_0_r, Rmult_0_l in Q2. split; auto.
Qed.
Lemma saw16_peak : first_peak (at_bin saw (4 / PI * 1) 16) (16 / 2) 2.
Proof.
  assert (F : forall k, at_bin saw (4 / PI * 1) 16 k = saw (INR k / 2)).
  { intros k. unfold at_bin, omega. f_equal. replace (INR 16) with 16 by (rewrite INR_IZR_INZ; reflexivity). field. apply PI_neq0. }
  assert (S1 : saw 1 = 1) by (unfold saw; destruct (Rle_dec 1 1); lra).
  replace 1 with (INR 2 / 2) in S1 at 1 by (cbn; lra).
  split; [cbn; lia|]. split; intros k Hk; rewrite !F, S1; unfold saw; pose proof (pos_INR k).
  - destruct (Rle_dec (INR k / 2) 1); [auto|]. rewrite <- Rinv_1. apply Rinv_le_contravar; lra.
  - assert (K : INR k <= 1) by (apply (le_INR k 1); lia). destruct (Rle_dec (INR k / 2) 1); lra.
Qed.
Theorem saw_case : find_max_scale saw (Ok 1) 16 1 1 = Ok (Some (4 / PI)) /\
  find_max_scale saw (Ok 1) 16 2 1 = Ok (Some (2 / PI)).
Proof.
  pose proof PI_RGT_0. pose proof (max_scale_one saw 1 16 ltac:(lia) ltac:(lra) 1 2 ltac:(cbn; lia) saw16_peak ltac:(lia)) as Q1.
  pose proof (max_scale_one saw 1 16 ltac:(lia) ltac:(lra) 2 2 ltac:(cbn; lia) saw16_peak ltac:(lia)) as Q2.
  cbn [Nat.sub] in *. change (Z.of_nat 1) with 1%Z in *. change (Z.of_nat 2) with 2%Z in *.
  rewrite Q1, Q2. split; do 2 f_equal; cbn [INR]; field; lra.
Qed.
(** [bin_loc] past the middle: a negative scale *)
Theorem saw_negative : exists s, find_max_scale saw (Ok 1) 16 9 1 = Ok (Some s) /\ s < 0.
Proof.
  pose proof PI_RGT_0. rewrite (max_scale_any saw 1 16 ltac:(lia) ltac:(lra) 1 (4 / PI) 9 9 ltac:(lia) (proj1 saw_case) eq_refl).
  change (xi_bin 16 9) with (-7)%Z. cbn [Z.eqb]. eexists. split; [reflexivity|].
  assert (0 < 4 / PI) by (apply Rdiv_lt_0_compat; lra). lra.
Qed.
(** 'log:maximal' for this wavelet at N = 16: mn is about 0.5 / pi, mx = 2 / pi *)
Theorem saw_named : exists fuel mn l,
  cwt_scalebounds saw 16 (Some Maximal) (BA None None None None None) false fuel = Some (Ok (mn, Some (2 / PI))) /\
  0 < mn < 2 / PI /\
  process_scales_str saw 16 SLog (Some Maximal) 32 (fun _ => Ok None) 1 false fuel = Some (Ok l).
Proof.
  pose proof PI_RGT_0 as Hpi. destruct saw_found as (fuel & E).
  destruct (min_left_near saw 1 fuel 1 1 saw_peak E (- (5 / 10)) (1 / 2)) as (s & Es & Hs); try lra.
  { unfold absf, saw. destruct (Rle_dec (1 / 2) 1); [|lra]. rewrite Rabs_Ropp, !Rabs_right; lra. }
  assert (B : cwt_scalebounds saw 16 (Some Maximal) (BA None None None None None) false fuel = Some (Ok (s, Some (2 / PI)))).
  { unfold cwt_scalebounds. cbn [process_bargs bind ba_loc ba_amp ba_cutoff or_z or_r or0 ba_min ba_max].
    rewrite Es. cbn [rbind]. rewrite E. cbn [rbind]. rewrite (proj2 saw_case). reflexivity. }
  exists fuel, s. eexists. split; [exact B|].
  assert (S : 0 < s < 2 / PI).
  { assert (s * PI - 1 / 2 <= 1 / 1000 /\ -1 / 1000 <= s * PI - 1 / 2).
    { unfold Rabs in Hs. destruct (Rcase_abs _); lra. }
    split; [apply (Rmult_lt_reg_r PI); lra|]. apply (Rmult_lt_reg_r PI); [lra|].
    unfold Rdiv. rewrite Rmult_assoc, Rinv_l; lra. }
  split; [exact S|]. unfold process_scales_str. cbn [Z.leb Z.compare split_preset]. rewrite B. cbn [rbind].
  unfold make_scales_bounds. reflexivity.
Qed.
