(** What an accepted call of [_check_ssqueezing_args] prints and hands on. *)
From Coq Require Import Reals Lra String.
From Verif Require Import Py Round Parallel Cplx Padding Buffer Freqs Squeeze Scales Ssqueeze Cwt SsqCwt Validate.
Local Open Scope R_scope.

Lemma accepted_parts sq mr wv dt od gw gpu tr k m : check_ssqueezing_args sq mr wv dt od gw gpu tr = Ok (k, m) ->
  exists m1 m2, check_maprange mr wv (is_str tr "cwt") = Ok m1 /\ check_difforder dt od = Ok (k, m2) /\ m = (m1 ++ m2)%list /\ one_of tr ["cwt"; "stft"]%string = true.
Proof.
  unfold check_ssqueezing_args. destruct (one_of tr ["cwt"; "stft"]%string) eqn:E; [|discriminate]. cbn [negb]. destruct (check_squeezing sq); [|discriminate]. cbn [bind].
  destruct (check_maprange mr wv (is_str tr "cwt")) as [m1|] eqn:E1; [|discriminate]. cbn [bind]. destruct (check_difftype dt gw gpu); [|discriminate]. cbn [bind].
  destruct (check_difforder dt od) as [[k' m2]|] eqn:E2; [|discriminate]. cbn [bind]. intros H. injection H as <- <-. exists m1, m2. auto.
Qed.
Lemma is_str_iff v s : is_str v s = true <-> v = PStr s.
Proof. destruct v; cbn; try (split; discriminate). rewrite String.eqb_eq. split; [intros ->; reflexivity|intros H; injection H; auto]. Qed.
Theorem messages sq mr wv dt od gw gpu tr k m : check_ssqueezing_args sq mr wv dt od gw gpu tr = Ok (k, m) ->
  (In NOTE_maprange m <-> tr = PStr "stft" /\ (mr = PStr "peak" \/ mr = PStr "energy")) /\
  (In WARN_difforder m <-> od <> PNone /\ dt <> PStr "numeric") /\ (length m <= 2)%nat /\
  (od <> PNone \/ dt <> PStr "numeric" -> k = od).
Proof.
  intros H. destruct (accepted_parts _ _ _ _ _ _ _ _ _ _ H) as (m1 & m2 & H1 & H2 & -> & H3).
  assert (T : is_str tr "cwt" = false <-> tr = PStr "stft").
  { cbn in H3. destruct (is_str tr "cwt") eqn:E; [|destruct (is_str tr "stft") eqn:E2; [|discriminate]].
    - apply is_str_iff in E. subst. split; [discriminate|intros K; discriminate].
    - apply is_str_iff in E2. tauto. }
  assert (A1 : (m1 = [NOTE_maprange] /\ is_str tr "cwt" = false /\ (mr = PStr "peak" \/ mr = PStr "energy")) \/ (m1 = [] /\ ~ (is_str tr "cwt" = false /\ (mr = PStr "peak" \/ mr = PStr "energy")))).
  { unfold check_maprange in H1. destruct mr; try discriminate.
    - injection H1 as <-. right. split; [reflexivity|]. intros [_ [K|K]]; discriminate.
    - destruct (one_of (PStr s) ["maximal"; "peak"; "energy"]%string) eqn:Eo; [|discriminate]. destruct (String.eqb s "maximal") eqn:Em.
      + apply String.eqb_eq in Em. subst s. injection H1 as <-. right. split; [reflexivity|]. intros [_ [K|K]]; discriminate.
      + assert (Hs : s = "peak"%string \/ s = "energy"%string).
        { cbn [one_of existsb is_str] in Eo. rewrite Em in Eo. cbn [orb] in Eo. rewrite Bool.orb_false_r in Eo. apply Bool.orb_true_iff in Eo. destruct Eo as [K|K]; apply String.eqb_eq in K; auto. }
        destruct (is_str tr "cwt"); cbn [negb] in H1.
        * destruct wv; cbn [negb] in H1; [|discriminate]. injection H1 as <-. right. split; [reflexivity|]. intros [K _]. discriminate.
        * injection H1 as <-. left. split; [reflexivity|]. split; [reflexivity|]. destruct Hs as [-> | ->]; auto.
    - destruct (forallb is_number l); [|discriminate]. injection H1 as <-. right. split; [reflexivity|]. intros [_ [K|K]]; discriminate.
    - destruct (forallb is_number l); [|discriminate]. injection H1 as <-. right. split; [reflexivity|]. intros [_ [K|K]]; discriminate. }
  assert (A2 : (m2 = [WARN_difforder] /\ od <> PNone /\ dt <> PStr "numeric" /\ k = od) \/ (m2 = [] /\ ~ (od <> PNone /\ dt <> PStr "numeric") /\ (od <> PNone \/ dt <> PStr "numeric" -> k = od))).
  { unfold check_difforder in H2. destruct (is_none od) eqn:En; cbn [negb] in H2.
    - assert (od = PNone) by (destruct od; try discriminate; reflexivity). subst od. right. destruct (is_str dt "numeric") eqn:Es.
      + injection H2 as <- <-. apply is_str_iff in Es. subst dt. split; [reflexivity|]. split; [intros [K _]; congruence|]. intros [K|K]; congruence.
      + injection H2 as <- <-. split; [reflexivity|]. split; [intros [K _]; congruence|]. auto.
    - assert (Hod : od <> PNone) by (intros ->; discriminate). destruct (is_str dt "numeric") eqn:Es; cbn [negb] in H2.
      + apply is_str_iff in Es. subst dt. destruct (is_int od 1 || is_int od 2 || is_int od 4)%bool; [|discriminate]. injection H2 as <- <-. right. split; [reflexivity|]. split; [intros [_ K]; congruence|]. auto.
      + injection H2 as <- <-. left. split; [reflexivity|]. split; [exact Hod|]. split; [|reflexivity]. intros ->. cbn in Es. discriminate. }
  destruct A1 as [(-> & B1 & B2)|(-> & B)]; destruct A2 as [(-> & D1 & D2 & D3)|(-> & D1 & D2)]; cbn [app In length]; rewrite <- T;
    (split; [split; [intros K|intros K]|split; [split; intros K|split; [lia|]]]); try tauto;
    try (destruct K as [K|[K|[]]]; discriminate || tauto); try (destruct K as [K|[]]; discriminate || tauto).
Qed.
(** TypeError for a value of the wrong type, ValueError for a wrong value of a right type *)
Theorem wrong_kind sq mr wv dt od gw gpu tr e : check_ssqueezing_args sq mr wv dt od gw gpu tr = Err e ->
  (e = TypeError <-> (tr = PStr "cwt" \/ tr = PStr "stft") /\
    ((forall s, sq <> PStr s) /\ sq <> PFunc \/
     ((sq = PFunc \/ sq = PStr "sum" \/ sq = PStr "lebesgue" \/ sq = PStr "abs") /\ mr <> PNone /\ (forall s, mr <> PStr s) /\ forall l, mr <> PTuple l /\ mr <> PList l))).
Proof.
  unfold check_ssqueezing_args. destruct (one_of tr ["cwt"; "stft"]%string) eqn:E; cbn [negb].
  2:{ intros H. injection H as <-. split; [discriminate|]. intros [[K|K] _]; subst tr; discriminate. }
  assert (Ht : tr = PStr "cwt" \/ tr = PStr "stft").
  { cbn in E. destruct (is_str tr "cwt") eqn:E1; [left; apply is_str_iff, E1|]. destruct (is_str tr "stft") eqn:E2; [right; apply is_str_iff, E2|discriminate]. }
  assert (Hd : forall e, check_difftype dt gw gpu = Err e -> e = ValueError).
  { intros e0. unfold check_difftype. repeat match goal with |- context [if ?b then _ else _] => destruct b end; intros H; try discriminate; injection H as <-; reflexivity. }
  assert (Ho : forall e, check_difforder dt od = Err e -> e = ValueError).
  { intros e0. unfold check_difforder. repeat match goal with |- context [if ?b then _ else _] => destruct b end; intros H; try discriminate; injection H as <-; reflexivity. }
  destruct (check_squeezing sq) as [u|e0] eqn:E1; cbn [bind].
  2:{ intros H. injection H as <-. unfold check_squeezing in E1. destruct sq as [|z|b|r|s|l|l| |]; try discriminate; try (injection E1 as <-; split; [intros _; split; [exact Ht|left; split; [intros s|]; discriminate]|reflexivity]).
      destruct (one_of (PStr s) ["sum"; "lebesgue"; "abs"]%string) eqn:Eo; [discriminate|]. injection E1 as <-. split; [discriminate|]. intros [_ [[K _]|[K _]]]; [destruct (K s eq_refl)|].
      destruct K as [K|[K|[K|K]]]; try discriminate; injection K as ->; discriminate. }
  assert (Hsq : sq = PFunc \/ sq = PStr "sum" \/ sq = PStr "lebesgue" \/ sq = PStr "abs").
  { unfold check_squeezing in E1. destruct sq; try discriminate; [|left; reflexivity]. right. cbn in E1.
    destruct (String.eqb s "sum") eqn:Ea; [apply String.eqb_eq in Ea; subst; auto|]. destruct (String.eqb s "lebesgue") eqn:Eb; [apply String.eqb_eq in Eb; subst; auto|].
    destruct (String.eqb s "abs") eqn:Ec; [apply String.eqb_eq in Ec; subst; auto|]. discriminate. }
  assert (Nsq : ~ ((forall s, sq <> PStr s) /\ sq <> PFunc)) by (intros [K1 K2]; destruct Hsq as [-> | [-> | [-> | -> ]]]; [apply K2; reflexivity|eapply K1; reflexivity|eapply K1; reflexivity|eapply K1; reflexivity]).
  destruct (check_maprange mr wv (is_str tr "cwt")) as [m1|e1] eqn:E2; cbn [bind].
  - assert (Nmr : ~ (mr <> PNone /\ (forall s, mr <> PStr s) /\ forall l, mr <> PTuple l /\ mr <> PList l)).
    { intros (K1 & K2 & K3). unfold check_maprange in E2. destruct mr; try discriminate; [apply K1; reflexivity|eapply K2; reflexivity|apply (proj1 (K3 l)); reflexivity|apply (proj2 (K3 l)); reflexivity]. }
    destruct (check_difftype dt gw gpu) as [v|e2] eqn:E3; cbn [bind].
    + destruct (check_difforder dt od) as [[k m2]|e3] eqn:E4; cbn [bind]; intros H; [discriminate|]. injection H as <-. rewrite (Ho e3 eq_refl). split; [discriminate|tauto].
    + intros H. injection H as <-. rewrite (Hd e2 eq_refl). split; [discriminate|tauto].
  - intros H. injection H as <-. unfold check_maprange in E2.
    destruct mr as [|z|b|r|s|l|l| |]; try discriminate; try (injection E2 as <-; split; [intros _; split; [exact Ht|right; split; [exact Hsq|]; repeat split; discriminate]|reflexivity]).
    + split; [intros ->|intros [_ [K|(_ & _ & K & _)]]; [tauto|destruct (K s eq_refl)]]. exfalso. repeat match type of E2 with context [if ?b then _ else _] => destruct b end; discriminate.
    + split; [intros ->|intros [_ [K|(_ & _ & _ & K)]]; [tauto|destruct (K l) as [K1 K2]; congruence]]. exfalso. repeat match type of E2 with context [if ?b then _ else _] => destruct b end; discriminate.
    + split; [intros ->|intros [_ [K|(_ & _ & _ & K)]]; [tauto|destruct (K l) as [K1 K2]; congruence]]. exfalso. repeat match type of E2 with context [if ?b then _ else _] => destruct b end; discriminate.
Qed.
Lemma messages_case : check_ssqueezing_args (PStr "sum") (PStr "peak") false (PStr "trig") (PInt 2) false false (PStr "stft") = Ok (PInt 2, [NOTE_maprange; WARN_difforder]) /\
  check_ssqueezing_args PFunc (PInt 3) true (PStr "trig") PNone false false (PStr "cwt") = Err TypeError /\
  check_ssqueezing_args PFunc (PStr "max") true (PStr "trig") PNone false false (PStr "cwt") = Err ValueError.
Proof. repeat split. Qed.
