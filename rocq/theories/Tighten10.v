(** The first sample of [packed_poly]; dtypes among a wavelet function's options. *)
From Coq Require Import String Reals Lra Lia.
From Verif Require Import Py Round Squeeze Scales Search Chirp Config ConfigProofs Signals SignalsThms SignalsThms2 PolySignals WaveletInit WaveletInitThms.

Section Start.
Local Open Scope R_scope.
Lemma packed_start_at N : packed_poly_at N 0 = 7 / 2.
Proof.
  unfold packed_poly_at, frac_pow. destruct (Req_EM_T 0 0) as [_|H]; [|now elim H].
  rewrite sin_0, cos_0. replace (2 * 0) with 0 by ring. rewrite cos_0. replace (- 0 / 15) with 0 by lra. rewrite exp_0.
  repeat match goal with |- context [cos (2 * PI * ?e)] => replace (cos (2 * PI * e)) with 1 by (symmetry; transitivity (cos 0); [f_equal; ring|apply cos_0]) end.
  lra.
Qed.
End Start.
(** all three components start at their crest, whatever [N] *)
Theorem packed_poly_start s N k : (1 <= or_N s N)%Z -> exists x t, packed_poly s N k = Ok (x, t) /\ (nth 0 t 0 = 0)%R /\ (nth 0 x 0 = 7 / 2)%R.
Proof.
  intros H. unfold packed_poly. destruct (times 0 10 (or_N s N) true) as [t|] eqn:E.
  - destruct (times_spec _ _ _ _ _ E) as (_ & Hl & _ & H0). cbn [bind]. eexists _, t. split; [reflexivity|]. split; [apply H0; lia|].
    rewrite (nth_map0 _ _ 0%nat 0%R) by lia. rewrite H0 by lia. apply packed_start_at.
  - exfalso. unfold times in E. destruct (Z.ltb_spec (or_N s N) 0); [lia|discriminate].
Qed.

Local Open Scope string_scope.
(** [dtype=np.float32] or [np.float64], the types, in the options of any wavelet: no wavelet *)
Theorem type_option typestr checks name o n s out : In s dtypes -> dget "dtype" o = Some (PObj n) ->
  typestr n = Some ("<class 'numpy." ++ s ++ "'>") -> make_fn typestr checks name o <> Ok out.
Proof.
  intros D E T H. unfold make_fn in H. destruct (negb _); [discriminate|]. destruct (checks name o); [|discriminate]. cbn [bind] in H.
  rewrite E in H. destruct (String.eqb name "bump"); [discriminate|]. cbn [params_dtype] in H. rewrite T in H.
  destruct D as [<-|[<-|[]]]; discriminate H.
Qed.
(** but the dtype of an array, or torch's, is accepted by all but bump *)
Theorem dtype_option typestr checks name o n s : In s dtypes -> dget "dtype" o = Some (PObj n) ->
  typestr n = Some ("torch." ++ s) \/ typestr n = Some s -> name <> "bump" ->
  (forall k, In k (keys o) -> In k (parameters name)) -> checks name o = Ok tt -> make_fn typestr checks name o = Ok s.
Proof.
  intros D E T B K C. unfold make_fn.
  assert (forallb (fun k => one_of k (parameters name)) (keys o) = true) as -> by (apply forallb_forall; intros k Hk; apply one_of_in, K, Hk).
  cbn [negb]. rewrite C. cbn [bind]. apply String.eqb_neq in B. rewrite B, E. cbn [params_dtype].
  destruct D as [<-|[<-|[]]], T as [-> | ->]; reflexivity.
Qed.
Lemma option_case : (exists x t, packed_poly (TS 512 default_tkw) None (TK None None None) = Ok (x, t) /\ nth 0 x 0 = 7 / 2)%R /\
  make_fn (fun _ => Some "torch.float32") (fun _ _ => Ok tt) "morlet" [("dtype", PObj 0)] = Ok "float32" /\
  make_fn (fun _ => Some "<class 'numpy.float32'>") (fun _ _ => Ok tt) "morlet" [("dtype", PObj 0)] = Err TypeError.
Proof.
  split; [|split; reflexivity].
  destruct (packed_poly_start (TS 512 default_tkw) None (TK None None None)) as (x & t & E & _ & V); [cbn; lia|]. eauto.
Qed.
