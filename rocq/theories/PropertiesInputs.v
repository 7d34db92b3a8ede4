(** Input with NaN or infinite samples; the normalisation of the wavelet [cwt] uses. *)
From Coq Require Import Reals Lra Lia List Bool Ascii String.
Import ListNotations.
From Verif Require Import Py Round Parallel Cplx Padding Buffer Freqs Squeeze Scales Cwt CwtWitness Pointwise NanInput NanInputThms
  Config ConfigProofs WaveletInit WaveletInitThms PropertiesInit CwtWavelet CwtWaveletThms.
Local Open Scope R_scope.

(** * C110: samples that are not finite *)

(** the transform is that of the signal with zeros in their place; missing: the caller's array keeps its samples (refuted below) *)
Theorem C110_zeroed_partial c py inst f a x : x <> [] -> c <> Some false ->
  cwt_np c py inst f a x = (cwt py inst f a (map value x), map zeroed x).
Proof. exact (cwt_zeroes c py inst f a x). Qed.
Print Assumptions C110_zeroed_partial.

(** a finite signal is transformed as it is and left alone *)
Theorem C110_finite_partial c py inst f a l : l <> [] ->
  cwt_np c py inst f a (map Num l) = (cwt py inst f a l, map Num l).
Proof. exact (cwt_finite c py inst f a l). Qed.
Print Assumptions C110_finite_partial.

(** it warns exactly if there is such a sample, and a second call on the same array does not *)
Theorem C110_warned_partial c x : x <> [] -> c <> Some false -> exists x' b, process_nan c x = Ok (x', b) /\
  (b = true <-> exists v, In v x /\ ~ finite v) /\ process_nan c x' = Ok (x', false).
Proof. exact (warned c x). Qed.
Print Assumptions C110_warned_partial.

(** 2-D input *)
Theorem C110_batch_partial c n xs : (0 < n)%nat -> xs <> [] -> (forall r, In r xs -> length r = n) ->
  wants c = true ->
  process_nan2 c n xs = Ok (map (map zeroed) xs, negb (forallb (forallb is_fin) xs)).
Proof. exact (process2_spec c n xs). Qed.
Print Assumptions C110_batch_partial.

(** with [order > 0]; here even if the caller asked for no check *)
Theorem C110_orders_partial c py fs a x : x <> [] -> fs <> [] ->
  cwt_np_orders c py fs a x = (map (fun f => cwt py true f a (map value x)) fs, map zeroed x).
Proof. exact (orders_zero c py fs a x). Qed.
Print Assumptions C110_orders_partial.

(** no samples *)
Theorem C110_empty_partial c py inst f a s : c <> Some false ->
  fst (cwt_np c py inst f a []) s = (Err ValueError, s).
Proof. exact (cwt_empty c py inst f a s). Qed.
Print Assumptions C110_empty_partial.

(** the caller's own array is overwritten *)
Theorem C110_caller_refuted py inst f a : exists x, snd (cwt_np None py inst f a x) <> x /\
  fst (cwt_np None py inst f a x) = cwt py inst f a [1; 0; 2].
Proof.
  exists [Num 1; NaN; Num 2]. rewrite (C110_zeroed_partial None py inst f a) by discriminate. split; [|reflexivity].
  cbn [snd map]. intros E. injection E as E. discriminate E.
Qed.
Print Assumptions C110_caller_refuted.
(** [nan_checks=False] is ignored with [order > 0] *)
Theorem C110_unchecked_refuted py f a : exists x, snd (cwt_np (Some false) py true f a x) = x /\
  snd (cwt_np_orders (Some false) py [f] a x) <> x.
Proof.
  exists [Num 1; PInf]. split; [reflexivity|]. rewrite (C110_orders_partial (Some false) py [f] a) by discriminate.
  cbn [snd map]. intros E. injection E as E. discriminate E.
Qed.
Print Assumptions C110_unchecked_refuted.

Example C110_case py inst f a : cwt_np None py inst f a [Num 3; NInf; Num 5; NaN] = (cwt py inst f a [3; 0; 5; 0], [Num 3; Num 0; Num 5; Num 0]).
Proof. exact (C110_zeroed_partial None py inst f a [Num 3; NInf; Num 5; NaN] ltac:(discriminate) ltac:(discriminate)). Qed.

Local Open Scope string_scope.

(** * C111: the GMW's normalisation is the one l1_norm asks for *)

(** a wavelet given by name *)
Theorem C111_name_partial typestr checks G user n l1 w : good G "gmw" -> starts_gmw n = true ->
  cwt_wavelet typestr checks G user (ASpec (SName n)) l1 = Ok w -> suits w l1.
Proof. exact (by_name typestr checks G user n l1 w). Qed.
Print Assumptions C111_name_partial.
(** a tuple whose dictionary has no 'norm'; missing: tuples with one, and higher orders (refuted below) *)
Theorem C111_tuple_partial typestr checks G user n opts l1 w : NoDup (keys opts) -> good G "gmw" -> starts_gmw n = true ->
  dget "norm" opts = None ->
  cwt_wavelet typestr checks G user (ASpec (STuple (FName n) opts)) l1 = Ok w -> suits w l1.
Proof. exact (tuple_fresh typestr checks G user n opts l1 w). Qed.
Print Assumptions C111_tuple_partial.
(** an instance of order 0 is refused unless it suits *)
Theorem C111_instance_partial typestr checks G user w l1 : w_fn w = Builtin "gmw" -> order0 (w_config w) = true ->
  (dget "norm" (w_config w) = Some (PStr "bandpass") \/ dget "norm" (w_config w) = Some (PStr "energy")) ->
  (suits w l1 -> cwt_wavelet typestr checks G user (AInst w) l1 = Ok w) /\
  (~ suits w l1 -> cwt_wavelet typestr checks G user (AInst w) l1 = Err ValueError).
Proof. exact (instance0 typestr checks G user w l1). Qed.
Print Assumptions C111_instance_partial.
(** wavelets of other families are used as given *)
Theorem C111_others_partial typestr checks G user s l1 : match s with
    | SName n => starts_gmw n = false
    | STuple (FName n) _ => starts_gmw n = false
    | STuple (FObj _) _ => False
    | _ => True end ->
  cwt_wavelet typestr checks G user (ASpec s) l1 = init typestr checks G s None /\ caller_after s l1 = s.
Proof. exact (others_untouched typestr checks G user s l1). Qed.
Print Assumptions C111_others_partial.

(** a call writes the normalisation into the caller's dictionary, and every later call with the same tuple and the other [l1_norm] transforms with the wrong one *)
Theorem C111_reuse_partial typestr checks G user n opts l1 w : NoDup (keys opts) -> good G "gmw" -> starts_gmw n = true ->
  dget "norm" opts = None ->
  cwt_wavelet typestr checks G user (ASpec (caller_after (STuple (FName n) opts) l1)) (negb l1) = Ok w ->
  suits w l1 /\ ~ suits w (negb l1).
Proof. exact (used_again typestr checks G user n opts l1 w). Qed.
Print Assumptions C111_reuse_partial.
Theorem C111_reuse_refuted user : exists s w1 w2,
  cwt_wavelet no_types no_checks some_G user (ASpec s) true = Ok w1 /\ suits w1 true /\
  cwt_wavelet no_types no_checks some_G user (ASpec (caller_after s true)) false = Ok w2 /\ ~ suits w2 false /\
  exists w3, cwt_wavelet no_types no_checks some_G user (ASpec s) false = Ok w3 /\ suits w3 false.
Proof.
  exists (STuple (FName "gmw") [("beta", PFloat 20)]). do 2 eexists.
  split; [reflexivity|]. split; [split; reflexivity|]. split; [reflexivity|]. split; [intros [_ E]; discriminate E|].
  eexists. split; [reflexivity|]. split; reflexivity.
Qed.
Print Assumptions C111_reuse_refuted.
(** a tuple that names the other normalisation is accepted, where the instance it describes is refused *)
Theorem C111_tuple_refuted user : exists s w, cwt_wavelet no_types no_checks some_G user (ASpec s) true = Ok w /\ ~ suits w true /\
  cwt_wavelet no_types no_checks some_G user (AInst w) true = Err ValueError.
Proof.
  exists (STuple (FName "gmw") [("norm", PStr "energy")]). eexists.
  split; [reflexivity|]. split; [intros [_ E]; discriminate E|].
  match goal with |- cwt_wavelet _ _ _ _ (AInst ?w) _ = _ =>
    refine (proj2 (C111_instance_partial no_types no_checks some_G user w true eq_refl _ (or_intror eq_refl)) _) end.
  - match goal with |- order0 ?d = true => assert (E : dget "order" d = Some (PFloat 0)) by reflexivity; unfold order0; rewrite E end.
    destruct (Req_EM_T 0 0) as [_|N]; [reflexivity|contradiction].
  - intros [_ E]. discriminate E.
Qed.
Print Assumptions C111_tuple_refuted.
(** instances of any order but 0 are accepted whatever their normalisation *)
Theorem C111_higher_instance_partial typestr checks G user w l1 : w_fn w = Builtin "gmw" -> order0 (w_config w) = false ->
  cwt_wavelet typestr checks G user (AInst w) l1 = Ok w.
Proof. exact (instancek typestr checks G user w l1). Qed.
Print Assumptions C111_higher_instance_partial.
(** so [cwt(x, 'gmw', order=1, l1_norm=False)] uses the L1 normalisation, and [order=(0,)] raises *)
Theorem C111_orders_refuted user : exists w,
  cwt_wavelets no_types no_checks some_G user false (ASpec (SName "gmw")) [PFloat 1] false = Ok [w] /\ ~ suits w false /\
  cwt_wavelets no_types no_checks some_G user false (ASpec (SName "gmw")) [PFloat 0] false = Err ValueError.
Proof.
  assert (O : forall k, exists w, order_wavelets no_types no_checks some_G false
      (W (Builtin "gmw") [("gamma", PFloat 3); ("beta", PFloat 60); ("norm", PStr "bandpass"); ("order", PFloat 0);
                      ("centered_scale", PBool false); ("dtype", PStr "float32")] "float32") [PFloat k] = Ok [w] /\
      w_fn w = Builtin "gmw" /\ dget "norm" (w_config w) = Some (PStr "bandpass") /\ dget "order" (w_config w) = Some (PFloat k)).
  { intros k. eexists. split; [reflexivity|]. repeat split. }
  destruct (O 1) as (w & E & F & N & K). destruct (O 0) as (w0 & E0 & F0 & N0 & K0).
  assert (I : init no_types no_checks some_G (SName "gmw") None = Ok (W (Builtin "gmw") [("gamma", PFloat 3); ("beta", PFloat 60); ("norm", PStr "bandpass"); ("order", PFloat 0);
                      ("centered_scale", PBool false); ("dtype", PStr "float32")] "float32")) by reflexivity.
  exists w. unfold cwt_wavelets. rewrite I. cbn [bind]. rewrite E, E0. cbn [bind map_res]. split; [|split].
  - rewrite (C111_higher_instance_partial no_types no_checks some_G user w false F); [reflexivity|].
    unfold order0. rewrite K. destruct (Req_EM_T 1 0) as [C|_]; [exfalso; revert C; apply R1_neq_R0|reflexivity].
  - intros [_ C]. rewrite N in C. discriminate C.
  - destruct (C111_instance_partial no_types no_checks some_G user w0 false F0) as (_ & C).
    + unfold order0. rewrite K0. destruct (Req_EM_T 0 0) as [_|C]; [reflexivity|contradiction].
    + now left.
    + rewrite C; [reflexivity|]. intros [_ C']. rewrite N0 in C'. discriminate C'.
Qed.
Print Assumptions C111_orders_refuted.
(** any name that starts with 'gmw' passes for 'gmw' *)
Theorem C111_typo_refuted user : exists w, cwt_wavelet no_types no_checks some_G user (ASpec (SName "GMWl2")) true = Ok w /\ suits w true /\
  init no_types no_checks some_G (SName "GMWl2") None = Err ValueError.
Proof. eexists. split; [reflexivity|]. split; [split; reflexivity|reflexivity]. Qed.
Print Assumptions C111_typo_refuted.

Example C111_case user : exists w, cwt_wavelet no_types no_checks some_G user (ASpec (STuple (FName "Gmw") [("gamma", PFloat 4)])) false = Ok w /\
  dget "norm" (w_config w) = Some (PStr "energy") /\ dget "gamma" (w_config w) = Some (PFloat 4) /\ w_dtype w = "float64".
Proof. eexists. repeat split. Qed.
