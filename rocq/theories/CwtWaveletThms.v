From Coq Require Import Ascii String Reals Lra Lia Bool List.
From Verif Require Import Py Config ConfigProofs WaveletInit WaveletInitThms CwtWavelet.
Import ListNotations.
Local Open Scope string_scope.

(** the normalisation [l1_norm] asks for *)
Definition suits (w : wavelet) (l1_norm : bool) : Prop :=
  w_fn w = Builtin "gmw" /\ dget "norm" (w_config w) = Some (PStr (if l1_norm then "bandpass" else "energy")).
Definition clean_opts (G : config) (opts : dict pyv) : Prop := NoDup (keys opts) /\ good G "gmw".

Section T.
Variable typestr : nat -> option string.
Variable checks : string -> dict pyv -> res unit.
Variable G : config.
Notation init := (init typestr checks G).
Notation cwt_wavelet := (cwt_wavelet typestr checks G).

Lemma put_norm_keys l1 (opts : dict pyv) : NoDup (keys opts) -> NoDup (keys (put_norm l1 opts)).
Proof. apply NoDup_dset. Qed.

Lemma put_norm_norm l1 opts : dget "norm" (put_norm l1 opts) =
  Some (match dget "norm" opts with Some v => v | None => PStr (norm_of l1) end).
Proof. unfold put_norm. rewrite dget_dset. rewrite String.eqb_refl. reflexivity. Qed.
Lemma put_norm_other l1 opts k : k <> "norm" -> dget k (put_norm l1 opts) = dget k opts.
Proof. intros H. unfold put_norm. rewrite dget_dset. destruct (String.eqb_spec k "norm"); [contradiction|reflexivity]. Qed.

(** a name of five supported ones that starts with gmw is gmw *)
Lemma gmw_only n : In (lower n) supported -> starts_gmw n = true -> lower n = "gmw".
Proof.
  unfold starts_gmw. intros [E|[E|[E|[E|[E|[]]]]]]; rewrite <- E; cbn; congruence.
Qed.
Lemma gmw_starts n : lower n = "gmw" -> starts_gmw n = true.
Proof. intros E. unfold starts_gmw. rewrite E. reflexivity. Qed.

(** by name *)
Lemma by_name user n l1 w : good G "gmw" -> starts_gmw n = true ->
  cwt_wavelet user (ASpec (SName n)) l1 = Ok w -> suits w l1.
Proof.
  intros Hg Hn H. cbn in H. rewrite Hn in H.
  change (init (STuple (FName "gmw") [("norm", PStr (norm_of l1))]) None = Ok w) in H.
  destruct (config_spec typestr checks G "gmw" [("norm", PStr (norm_of l1))] None w) as (F & _ & V & _); trivial.
  { cbn. constructor; [intros []|constructor]. }
  split; [exact F|]. rewrite V by discriminate. cbn. destruct l1; reflexivity.
Qed.

Lemma by_tuple user n opts l1 w : NoDup (keys opts) -> good G "gmw" -> starts_gmw n = true ->
  cwt_wavelet user (ASpec (STuple (FName n) opts)) l1 = Ok w ->
  w_fn w = Builtin "gmw" /\
  dget "norm" (w_config w) = chosen (listed G "gmw") (put_norm l1 opts) "norm" /\
  forall k, k <> "norm" -> k <> "dtype" -> dget k (w_config w) = chosen (listed G "gmw") opts k.
Proof.
  intros N Hg Hn H. cbn in H. rewrite Hn in H.
  change (init (STuple (FName n) (put_norm l1 opts)) None = Ok w) in H.
  assert (E : lower n = "gmw").
  { pose proof H as H'. apply init_named_inv in H'. destruct H' as (ds & r & _ & _ & F).
    apply finish_inv in F. destruct F as (F & _). now apply gmw_only. }
  destruct (config_spec typestr checks G n (put_norm l1 opts) None w) as (F & _ & V & _); trivial.
  { now apply put_norm_keys. } { now rewrite E. }
  rewrite E in *. split; [exact F|]. split; [now apply V|].
  intros k Hk Hk'. rewrite V by assumption. unfold chosen. rewrite put_norm_other by assumption. reflexivity.
Qed.

(** by tuple, no norm given *)
Lemma tuple_fresh user n opts l1 w : NoDup (keys opts) -> good G "gmw" -> starts_gmw n = true ->
  dget "norm" opts = None ->
  cwt_wavelet user (ASpec (STuple (FName n) opts)) l1 = Ok w -> suits w l1.
Proof.
  intros N Hg Hn Ho H. destruct (by_tuple user n opts l1 w N Hg Hn H) as (F & V & _).
  split; [exact F|]. rewrite V. unfold chosen. rewrite put_norm_norm, Ho. destruct l1; reflexivity.
Qed.

(** what the first call leaves behind *)
Lemma dictionary_after n opts l1 : starts_gmw n = true -> dget "norm" opts = None ->
  exists opts', caller_after (STuple (FName n) opts) l1 = STuple (FName n) opts' /\
  dget "norm" opts' = Some (PStr (norm_of l1)) /\ opts' <> opts.
Proof.
  intros Hn Ho. exists (put_norm l1 opts). cbn. rewrite Hn. split; [reflexivity|].
  rewrite put_norm_norm, Ho. split; [reflexivity|]. intros E.
  pose proof (put_norm_norm l1 opts) as P. rewrite E, Ho in P. discriminate P.
Qed.

(** the same tuple again, with the other [l1_norm] *)
Lemma used_again user n opts l1 w : NoDup (keys opts) -> good G "gmw" -> starts_gmw n = true ->
  dget "norm" opts = None ->
  cwt_wavelet user (ASpec (caller_after (STuple (FName n) opts) l1)) (negb l1) = Ok w ->
  suits w l1 /\ ~ suits w (negb l1).
Proof.
  intros N Hg Hn Ho H. cbn [caller_after] in H. rewrite Hn in H.
  destruct (by_tuple user n (put_norm l1 opts) (negb l1) w (put_norm_keys _ _ N) Hg Hn H) as (F & V & _).
  assert (E : dget "norm" (w_config w) = Some (PStr (norm_of l1))).
  { rewrite V. unfold chosen. rewrite put_norm_norm, put_norm_norm, Ho. reflexivity. }
  split; [split; trivial|]. intros [_ E']. rewrite E in E'. destruct l1; discriminate E'.
Qed.

(** instances of order 0 are accepted exactly if they suit *)
Lemma instance0 user w l1 : w_fn w = Builtin "gmw" -> order0 (w_config w) = true ->
  (dget "norm" (w_config w) = Some (PStr "bandpass") \/ dget "norm" (w_config w) = Some (PStr "energy")) ->
  (suits w l1 -> cwt_wavelet user (AInst w) l1 = Ok w) /\
  (~ suits w l1 -> cwt_wavelet user (AInst w) l1 = Err ValueError).
Proof.
  intros F O Hn. unfold suits. cbn. unfold check_instance. rewrite F. cbn [String.eqb].
  replace (String.eqb "gmw" "gmw") with true by reflexivity.
  unfold gmw_name. rewrite O. destruct Hn as [E|E]; rewrite E; destruct l1; cbn; split; intros S; try reflexivity;
    try (exfalso; apply S; split; reflexivity); destruct S as [_ S]; discriminate S.
Qed.

(** of any other order they are accepted anyway *)
Lemma instancek user w l1 : w_fn w = Builtin "gmw" -> order0 (w_config w) = false ->
  cwt_wavelet user (AInst w) l1 = Ok w.
Proof.
  intros F O. cbn. unfold check_instance. rewrite F.
  replace (String.eqb "gmw" "gmw") with true by reflexivity.
  unfold gmw_name. rewrite O. destruct (is_str _ _), l1; reflexivity.
Qed.

(** other wavelets are used as they are *)
Lemma others_untouched user s l1 : match s with
    | SName n => starts_gmw n = false
    | STuple (FName n) _ => starts_gmw n = false
    | STuple (FObj _) _ => False
    | _ => True end ->
  cwt_wavelet user (ASpec s) l1 = init s None /\ caller_after s l1 = s.
Proof.
  destruct s as [o|n|[n|b] opts|]; cbn; intros H; try contradiction; try (rewrite H; auto); auto.
Qed.
End T.
