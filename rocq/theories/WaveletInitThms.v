(** Proofs about [WaveletInit]. *)
From Coq Require Import Ascii String Reals.
From Verif Require Import Py Config ConfigProofs WaveletInit.
Local Open Scope string_scope.

Lemma one_of_in s l : one_of s l = true <-> In s l.
Proof.
  unfold one_of. rewrite existsb_exists. split; [intros (x & H & E); apply String.eqb_eq in E; subst; exact H|].
  intros H. exists s. split; [exact H|apply String.eqb_refl].
Qed.
Lemma one_of_not s l : one_of s l = false <-> ~ In s l.
Proof. rewrite <- one_of_in. destruct (one_of s l); split; congruence. Qed.
Lemma dict_ext (a : dict pyv) : forall b, NoDup (keys a) -> keys a = keys b -> (forall k, dget k a = dget k b) -> a = b.
Proof.
  induction a as [|[k v] a IH]; intros [|[k' v'] b] N K H; try discriminate K; [reflexivity|].
  injection K as <- K. inversion N as [|? ? N1 N2]. subst. pose proof (H k) as Hk. cbn in Hk. rewrite String.eqb_refl in Hk. injection Hk as <-.
  f_equal. apply IH; try assumption. intros x. pose proof (H x) as Hx. cbn in Hx. destruct (String.eqb_spec x k) as [e|e]; [|exact Hx]. subst x.
  transitivity (@None pyv); [|symmetry]; apply dget_none; [exact N1|].
  unfold keys in *. rewrite <- K. exact N1.
Qed.
Lemma dset_same k v (d : dict pyv) : dget k d = Some v -> dset k v d = d.
Proof.
  induction d as [|[a w] d IH]; cbn; [discriminate|]. destruct (String.eqb_spec k a) as [->|N]; [intros E; injection E as ->; reflexivity|].
  intros E. rewrite IH; [reflexivity|exact E].
Qed.
Lemma dget_key k (d : dict pyv) : In k (keys d) -> exists v, dget k d = Some v.
Proof. intros H. destruct (dget k d) eqn:E; [eauto|]. apply dget_none in E. contradiction. Qed.

Section Thms.
Variable typestr : nat -> option string.
Variable checks : string -> dict pyv -> res unit.
Variable G : config.
Notation init := (init typestr checks G).
Notation make_fn := (make_fn typestr checks).
Notation finish := (finish typestr checks).
Notation validate := (validate typestr checks G).

(** what configs.ini lists for a wavelet *)
Definition listed (name : string) : dict pyv :=
  empty_if_none (defaults_of G (if String.eqb name "gmw" then "_gmw" else "wavelets") name).
(** the value of a parameter: the caller's unless [None], else that of configs.ini *)
Definition chosen (D opts : dict pyv) (k : string) : option pyv :=
  match dget k opts with
  | Some PNone | None => match dget k D with Some d => Some d | None => dget k opts end
  | Some v => Some v
  end.
Definition good (name : string) : Prop := NoDup (keys (listed name)).

Lemma wd_spec name opts : NoDup (keys opts) -> good name -> (forall k, In k (keys opts) -> ~ In k reserved) ->
  exists r, with_defaults G name opts = Ok r /\ NoDup (keys r) /\
    (forall k, dget k r = chosen (listed name) opts k) /\
    keys r = (keys (listed name) ++ filter (fun k => negb (has k (listed name))) (keys opts))%list.
Proof.
  intros N ND NR. unfold with_defaults.
  replace (existsb (fun k => one_of k reserved) (keys opts)) with false.
  2: { symmetry. destruct (existsb _ _) eqn:E; [|reflexivity]. apply existsb_exists in E. destruct E as (k & H1 & H2). apply one_of_in in H2. destruct (NR k H1 H2). }
  eexists. split; [reflexivity|]. destruct (gd_spec G (if String.eqb name "gmw" then "_gmw" else "wavelets") name true true opts N ND) as (A & B & C). cbv zeta in *.
  fold (listed name) in *. split; [exact A|]. split.
  - intros k. rewrite B. unfold chosen. destruct (dget k opts) as [[]|]; try reflexivity; destruct (dget k (listed name)); reflexivity.
  - rewrite C. f_equal.
    + assert (F : forall (f : string -> bool) l, (forall x, In x l -> f x = true) -> filter f l = l).
      { induction l as [|x l IH]; intros H; cbn; [reflexivity|]. rewrite H by (left; reflexivity). f_equal. apply IH. intros y Hy. apply H. right. exact Hy. }
      apply F. intros k Hk. destruct (in_dec string_dec k _) as [|n0]; [reflexivity|]. exfalso. apply n0. rewrite in_app_iff, filter_In.
      destruct (has k opts) eqn:E; [left; apply has_in; exact E|right; split; [exact Hk|reflexivity]].
    + rewrite filter_app. rewrite <- (app_nil_r (filter _ (keys opts))) at 2. f_equal.
      assert (F : forall (f : string -> bool) l, (forall x, In x l -> f x = false) -> filter f l = []).
      { induction l as [|x l IH]; intros H; cbn; [reflexivity|]. rewrite H by (left; reflexivity). apply IH. intros y Hy. apply H. right. exact Hy. }
      apply F. intros k Hk. apply filter_In in Hk. destruct Hk as (Hk & _). apply has_in in Hk. rewrite Hk. reflexivity.
Qed.

(** *** [finish] *)
Lemma energy_dset v opts : energy (dset "dtype" v opts) = energy opts.
Proof. unfold energy. rewrite dget_dset. reflexivity. Qed.
Lemma set_dtype_spec d opts : let '(d', o) := set_dtype d opts in
  (energy opts = true /\ d' = Some "float64" /\ o = dset "dtype" (PStr "float64") opts) \/
  (energy opts = false /\ d' = d /\ o = match d with Some s => dset "dtype" (PStr s) opts | None => opts end).
Proof. unfold set_dtype. destruct (energy opts); [left; auto|]. destruct d; right; auto. Qed.

Lemma init_named_inv n opts d w : init (STuple (FName n) opts) d = Ok w ->
  exists ds r, (match d with None => ds = None | Some x => exists s, process_dtype x = Ok s /\ ds = Some s end) /\
    with_defaults G (lower n) opts = Ok r /\ finish (lower n) ds r = Ok w.
Proof.
  unfold WaveletInit.init. destruct d as [x|]; cbn [bind WaveletInit.validate].
  - destruct (process_dtype x) as [s|] eqn:E; [|discriminate]. cbn [bind]. destruct (with_defaults G (lower n) opts) as [r|] eqn:E2; [|discriminate].
    cbn [bind]. intros H. exists (Some s), r. eauto.
  - destruct (with_defaults G (lower n) opts) as [r|] eqn:E2; [|discriminate]. cbn [bind]. intros H. exists None, r. auto.
Qed.
Lemma finish_inv name d r w : finish name d r = Ok w ->
  In name supported /\ w_fn w = Builtin name /\
  exists out, w_config w = snd (set_dtype d r) /\ make_fn name (w_config w) = Ok out /\
    w_dtype w = match fst (set_dtype d r) with Some s => s | None => out end.
Proof.
  unfold WaveletInit.finish. destruct (set_dtype d r) as [d' o] eqn:E. destruct (one_of name supported) eqn:S; [|discriminate]. cbn [negb].
  destruct (make_fn name o) as [out|] eqn:M; [|discriminate]. cbn [bind]. intros H. injection H as <-. cbn. apply one_of_in in S. split; [exact S|].
  split; [reflexivity|]. exists out. auto.
Qed.
Lemma init_name n d : init (SName n) d = init (STuple (FName n) []) d.
Proof. reflexivity. Qed.

Lemma params_no_reserved name k : In k (parameters name) -> ~ In k reserved.
Proof.
  unfold parameters. repeat (match goal with |- context [String.eqb name ?x] => destruct (String.eqb name x) end);
    cbn; intros H; repeat (destruct H as [<-|H]; [intros F; repeat (destruct F as [F|F]; [discriminate F|]); exact F|]); destruct H.
Qed.
Lemma make_fn_keys name o out : make_fn name o = Ok out -> forall k, In k (keys o) -> In k (parameters name).
Proof.
  unfold WaveletInit.make_fn. destruct (forallb _ (keys o)) eqn:E; [|discriminate]. intros _ k Hk. rewrite forallb_forall in E. apply one_of_in, E, Hk.
Qed.
Lemma after_dot_dtypes s : In s dtypes -> after_dot s = s.
Proof. cbn. intros [<-|[<-|[]]]; reflexivity. Qed.
Lemma make_fn_out name o out : make_fn name o = Ok out -> In out dtypes.
Proof.
  unfold WaveletInit.make_fn. destruct (negb _); [discriminate|]. destruct (checks name o); [|discriminate]. cbn [bind]. destruct (String.eqb name "bump").
  - unfold bump_dtype. destruct (dget "dtype" o) as [[]|]; try discriminate. destruct (one_of s ["float32"; "complex64"]); [intros H; injection H as <-; cbn; auto|].
    destruct (one_of s ["float64"; "complex128"]); [intros H; injection H as <-; cbn; auto|]. destruct (one_of s ["float32'>"; "float64'>"]); discriminate.
  - unfold params_dtype, process_dtype. destruct (dget "dtype" o) as [[]|]; try discriminate.
    + destruct (one_of s dtypes) eqn:E; [|discriminate]. apply one_of_in in E. intros H. injection H as <-. rewrite after_dot_dtypes; assumption.
    + destruct (typestr n) as [s|]; [|discriminate]. destruct (one_of (after_dot s) dtypes) eqn:E; [|destruct (one_of (after_dot s) ["float32'>"; "float64'>"]); intros H; discriminate H].
      intros H. injection H as <-. apply one_of_in. exact E.
Qed.
(** a string dtype goes through as it is *)
Lemma make_fn_str name o out s : make_fn name o = Ok out -> dget "dtype" o = Some (PStr s) -> In s dtypes -> out = s.
Proof.
  intros H E D. unfold WaveletInit.make_fn in H. destruct (negb _); [discriminate|]. destruct (checks name o); [|discriminate]. cbn [bind] in H.
  destruct (String.eqb name "bump"); rewrite E in H; cbn [bump_dtype params_dtype process_dtype] in H.
  - destruct D as [<-|[<-|[]]]; cbn in H; congruence.
  - apply one_of_in in D. unfold process_dtype in H. rewrite D in H. injection H as <-. apply after_dot_dtypes. apply one_of_in. exact D.
Qed.

(** *** dtype *)
(** accepted dtype arguments and the string meant *)
Definition means (d : dtype_arg) (s : string) : Prop := (d = DStr s \/ d = np_dtype s \/ d = DType ("torch." ++ s)) /\ In s dtypes.
Lemma means_process d s : means d s -> process_dtype d = Ok s.
Proof. intros ([->|[->| ->]] & [<-|[<-|[]]]); reflexivity. Qed.

Definition norm_energy (n : string) (opts : dict pyv) : Prop := chosen (listed (lower n)) opts "norm" = Some (PStr "energy").
Lemma energy_iff n opts r : (forall k, dget k r = chosen (listed (lower n)) opts k) -> energy r = true <-> norm_energy n opts.
Proof.
  intros H. unfold energy, norm_energy. rewrite H. unfold is_str. destruct (chosen _ _ _) as [[]|]; split; try discriminate.
  - intros E. apply String.eqb_eq in E. subst. reflexivity.
  - intros E. injection E as ->. reflexivity.
Qed.

(** allowed options *)
Definition allowed (n : string) (opts : dict pyv) : Prop :=
  In (lower n) supported /\ good (lower n) /\ NoDup (keys opts) /\
  (forall k, In k (keys opts) -> In k (parameters (lower n))) /\
  (forall k, In k (keys (listed (lower n))) -> In k (parameters (lower n))).
Lemma dtype_param name : In "dtype" (parameters name).
Proof.
  unfold parameters. repeat (match goal with |- context [String.eqb name ?x] => destruct (String.eqb name x) end); cbn; tauto.
Qed.

Theorem dtype_given n opts d s : allowed n opts -> means d s -> ~ norm_energy n opts ->
  (forall o, checks (lower n) o = Ok tt) ->
  exists w, init (STuple (FName n) opts) (Some d) = Ok w /\ w_dtype w = s /\ dget "dtype" (w_config w) = Some (PStr s).
Proof.
  intros (S & Hg & N & P1 & P2) M NE CH. destruct (wd_spec (lower n) opts N Hg) as (r & E & Nr & V & K).
  { intros k Hk. apply params_no_reserved with (name := lower n), P1, Hk. }
  assert (En : energy r = false).
  { destruct (energy r) eqn:E'; [|reflexivity]. apply (energy_iff n opts r V) in E'. contradiction. }
  unfold WaveletInit.init. rewrite (means_process d s M). cbn [bind WaveletInit.validate]. rewrite E. cbn [bind].
  unfold WaveletInit.finish, set_dtype. rewrite En. assert (S' := S). apply one_of_in in S'. rewrite S'. cbn [negb].
  assert (MF : make_fn (lower n) (dset "dtype" (PStr s) r) = Ok s).
  { unfold WaveletInit.make_fn. replace (forallb _ _) with true.
    2: { symmetry. apply forallb_forall. intros k Hk. apply one_of_in. rewrite keys_dset in Hk.
         assert (Hr : In k (keys r) -> In k (parameters (lower n))).
         { rewrite K, in_app_iff, filter_In. intros [H|(H & _)]; auto. }
         destruct (has "dtype" r); [auto|]. apply in_app_iff in Hk. destruct Hk as [Hk|[<-|[]]]; [auto|apply dtype_param]. }
    cbn [negb]. rewrite CH. cbn [bind]. rewrite dget_dset, String.eqb_refl. destruct (proj2 M) as [<-|[<-|[]]]; destruct (String.eqb (lower n) "bump"); reflexivity. }
  rewrite MF. cbn [bind]. eexists. split; [reflexivity|]. cbn. split; [reflexivity|]. rewrite dget_dset, String.eqb_refl. reflexivity.
Qed.

Theorem dtype_energy n opts d w : NoDup (keys opts) -> good (lower n) -> init (STuple (FName n) opts) d = Ok w -> norm_energy n opts ->
  w_dtype w = "float64" /\ dget "dtype" (w_config w) = Some (PStr "float64").
Proof.
  intros N Hg H E. apply init_named_inv in H. destruct H as (ds & r & _ & WD & F). apply finish_inv in F. destruct F as (Hs & _ & out & C & M & D).
  destruct (wd_spec (lower n) opts N Hg) as (r' & E1 & _ & V & _).
  { intros k Hk Hr. unfold with_defaults in WD. replace (existsb (fun k => one_of k reserved) (keys opts)) with true in WD; [discriminate WD|].
    symmetry. apply existsb_exists. exists k. split; [exact Hk|apply one_of_in; exact Hr]. }
  rewrite WD in E1. injection E1 as <-. apply (energy_iff n opts r V) in E. pose proof (set_dtype_spec ds r) as SD. destruct (set_dtype ds r) as [d' o]. cbn in *.
  destruct SD as [(_ & -> & ->)|(E' & _)]; [|congruence]. rewrite D, C, dget_dset. auto.
Qed.

Theorem dtype_default n opts w s : NoDup (keys opts) -> good (lower n) -> init (STuple (FName n) opts) None = Ok w -> ~ norm_energy n opts ->
  chosen (listed (lower n)) opts "dtype" = Some (PStr s) -> In s dtypes -> w_dtype w = s.
Proof.
  intros N Hg H E CD Hs. apply init_named_inv in H. destruct H as (ds & r & -> & WD & F). apply finish_inv in F. destruct F as (_ & _ & out & C & M & D).
  destruct (wd_spec (lower n) opts N Hg) as (r' & E1 & _ & V & _).
  { intros k Hk Hr. unfold with_defaults in WD. replace (existsb (fun k => one_of k reserved) (keys opts)) with true in WD; [discriminate WD|].
    symmetry. apply existsb_exists. exists k. split; [exact Hk|apply one_of_in; exact Hr]. }
  rewrite WD in E1. injection E1 as <-. assert (En : energy r = false).
  { destruct (energy r) eqn:E'; [|reflexivity]. apply (energy_iff n opts r V) in E'. contradiction. }
  unfold set_dtype in *. rewrite En in *. cbn in *. rewrite D. eapply make_fn_str; [exact M| |exact Hs]. rewrite C, V. exact CD.
Qed.

(** a NumPy scalar type never works *)
Theorem np_type_fails n opts s w : NoDup (keys opts) -> good (lower n) -> In s dtypes -> ~ norm_energy n opts ->
  init (STuple (FName n) opts) (Some (np_type s)) <> Ok w.
Proof.
  intros N Hg Hs E H. apply init_named_inv in H. destruct H as (ds & r & (s' & P & ->) & WD & F). apply finish_inv in F. destruct F as (_ & _ & out & C & M & D).
  destruct (wd_spec (lower n) opts N Hg) as (r' & E1 & _ & V & _).
  { intros k Hk Hr. unfold with_defaults in WD. replace (existsb (fun k => one_of k reserved) (keys opts)) with true in WD; [discriminate WD|].
    symmetry. apply existsb_exists. exists k. split; [exact Hk|apply one_of_in; exact Hr]. }
  rewrite WD in E1. injection E1 as <-. assert (En : energy r = false).
  { destruct (energy r) eqn:E'; [|reflexivity]. apply (energy_iff n opts r V) in E'. contradiction. }
  unfold set_dtype in *. rewrite En in *. cbn [fst snd] in *. unfold WaveletInit.make_fn in M. destruct (negb _); [discriminate|].
  destruct (checks _ _); [|discriminate]. cbn [bind] in M. rewrite C, dget_dset, String.eqb_refl in M.
  destruct Hs as [<-|[<-|[]]]; cbn in P; injection P as <-; destruct (String.eqb (lower n) "bump"); discriminate M.
Qed.

Theorem function_dtype out d w : init (SFun (Ok out)) d = Ok w -> w_dtype w = real_of out /\ w_config w = [].
Proof.
  unfold WaveletInit.init. destruct d as [d|]; cbn [bind WaveletInit.validate].
  - destruct (process_dtype d); [|discriminate]. cbn [bind]. intros H. injection H as <-. auto.
  - intros H. injection H as <-. auto.
Qed.

(** *** configuration *)
Theorem config_spec n opts d w : NoDup (keys opts) -> good (lower n) -> init (STuple (FName n) opts) d = Ok w ->
  w_fn w = Builtin (lower n) /\ NoDup (keys (w_config w)) /\
  (forall k, k <> "dtype" -> dget k (w_config w) = chosen (listed (lower n)) opts k) /\
  (forall k, In k (keys (w_config w)) <-> In k (keys opts) \/ In k (keys (listed (lower n))) \/ (k = "dtype" /\ has "dtype" (w_config w) = true)).
Proof.
  intros N Hg H. apply init_named_inv in H. destruct H as (ds & r & _ & WD & F). apply finish_inv in F. destruct F as (_ & FN & out & C & M & D).
  destruct (wd_spec (lower n) opts N Hg) as (r' & E1 & Nr & V & K).
  { intros k Hk Hr. unfold with_defaults in WD. replace (existsb (fun k => one_of k reserved) (keys opts)) with true in WD; [discriminate WD|].
    symmetry. apply existsb_exists. exists k. split; [exact Hk|apply one_of_in; exact Hr]. }
  rewrite WD in E1. injection E1 as <-. split; [exact FN|].
  assert (HC : w_config w = r \/ exists s, w_config w = dset "dtype" (PStr s) r).
  { rewrite C. unfold set_dtype. destruct (energy r); [right; eexists; reflexivity|]. destruct ds; [right; eexists; reflexivity|left; reflexivity]. }
  assert (Kr : forall k, In k (keys r) <-> In k (keys opts) \/ In k (keys (listed (lower n)))).
  { intros k. rewrite K, in_app_iff, filter_In. split; [tauto|]. intros [H|H]; [|left; exact H].
    destruct (has k (listed (lower n))) eqn:E; [left; apply has_in; exact E|right; split; [exact H|reflexivity]]. }
  destruct HC as [E|(s & E)]; rewrite E.
  - split; [exact Nr|]. split; [intros k _; apply V|]. intros k. rewrite Kr. split; [tauto|]. intros [H|[H|(-> & H)]]; auto. apply Kr, has_in, H.
  - split; [apply NoDup_dset, Nr|]. split.
    + intros k Hk. rewrite dget_dset. destruct (String.eqb_spec k "dtype"); [contradiction|apply V].
    + intros k. rewrite keys_dset. unfold has at 2. rewrite dget_dset, String.eqb_refl. destruct (has "dtype" r) eqn:Hd.
      * rewrite Kr. split; [tauto|]. intros [H|[H|(-> & _)]]; auto. apply Kr, has_in, Hd.
      * rewrite in_app_iff, Kr. cbn. split; [intros [[H|H]|[<-|[]]]; auto|]. intros [H|[H|(-> & _)]]; auto.
Qed.

Theorem names_case n m opts d : lower n = lower m -> init (STuple (FName n) opts) d = init (STuple (FName m) opts) d.
Proof. intros E. unfold WaveletInit.init. cbn [WaveletInit.validate]. rewrite E. reflexivity. Qed.
Theorem unknown_name n opts d s : ~ In (lower n) supported -> (forall k, In k (keys opts) -> ~ In k reserved) ->
  (d = None \/ exists x, d = Some x /\ process_dtype x = Ok s) ->
  init (STuple (FName n) opts) d = Err ValueError.
Proof.
  intros S R Hd. assert (F : forall ds, (do o <- with_defaults G (lower n) opts; finish (lower n) ds o) = Err ValueError).
  { intros ds. unfold with_defaults. replace (existsb (fun k => one_of k reserved) (keys opts)) with false.
    2: { symmetry. destruct (existsb _ _) eqn:E; [|reflexivity]. apply existsb_exists in E. destruct E as (k & H1 & H2). apply one_of_in in H2. destruct (R k H1 H2). }
    cbn [bind]. unfold WaveletInit.finish. destruct (set_dtype ds _). apply one_of_not in S. rewrite S. reflexivity. }
  unfold WaveletInit.init. destruct Hd as [->|(x & -> & E)]; [|rewrite E]; cbn [bind WaveletInit.validate]; apply F.
Qed.

(** *** building again from the configuration *)
Lemma lower_supported n : In n supported -> lower n = n.
Proof. cbn. intros H. repeat (destruct H as [<-|H]; [reflexivity|]). destruct H. Qed.

Definition settled (D c : dict pyv) : Prop :=
  NoDup (keys c) /\ (forall k, In k (keys D) -> In k (keys c)) /\
  (exists ex, keys c = (keys D ++ ex)%list) /\
  (forall k, dget k c = Some PNone -> dget k D = None \/ dget k D = Some PNone).
Lemma settled_fix name c : good name -> settled (listed name) c -> (forall k, In k (keys c) -> ~ In k reserved) -> with_defaults G name c = Ok c.
Proof.
  intros Hg (N & _ & (ex & K) & V) R. destruct (wd_spec name c N Hg R) as (r & E & Nr & Vr & Kr). rewrite E. f_equal.
  apply dict_ext; [exact Nr| |].
  - rewrite Kr, K. f_equal.
    assert (F : forall (f : string -> bool) l, (forall x, In x l -> f x = false) -> filter f l = []).
    { induction l as [|x l IH]; intros H; cbn; [reflexivity|]. rewrite H by (left; reflexivity). apply IH. intros y Hy. apply H. right. exact Hy. }
    assert (F' : forall (f : string -> bool) l, (forall x, In x l -> f x = true) -> filter f l = l).
    { induction l as [|x l IH]; intros H; cbn; [reflexivity|]. rewrite H by (left; reflexivity). f_equal. apply IH. intros y Hy. apply H. right. exact Hy. }
    rewrite filter_app, F, F'; [reflexivity| |].
    + intros k Hk. destruct (has k (listed name)) eqn:E'; [|reflexivity]. exfalso. apply has_in in E'. rewrite K in N.
      clear - N Hk E'. induction (keys (listed name)) as [|a l IH]; [destruct E'|]. cbn in N. inversion N. subst. destruct E' as [->|E']; [|apply IH; assumption].
      apply H1. rewrite in_app_iff. right. exact Hk.
    + intros k Hk. apply has_in in Hk. rewrite Hk. reflexivity.
  - intros k. rewrite Vr. unfold chosen. destruct (dget k c) as [[]|] eqn:E'; try reflexivity.
    + destruct (V k E') as [-> | ->]; reflexivity.
    + destruct (dget k (listed name)) eqn:E2; [|reflexivity]. exfalso. apply dget_none in E'. apply E'. rewrite K, in_app_iff. left.
      apply has_in. unfold has. rewrite E2. reflexivity.
Qed.
Lemma config_settled n opts d w : NoDup (keys opts) -> good (lower n) -> init (STuple (FName n) opts) d = Ok w -> settled (listed (lower n)) (w_config w).
Proof.
  intros N Hg H. pose proof (config_spec n opts d w N Hg H) as (_ & Nc & Vc & Kc). apply init_named_inv in H. destruct H as (ds & r & _ & WD & F). apply finish_inv in F.
  destruct F as (_ & FN & out & C & M & D). destruct (wd_spec (lower n) opts N Hg) as (r' & E1 & Nr & V & K).
  { intros k Hk Hr. unfold with_defaults in WD. replace (existsb (fun k => one_of k reserved) (keys opts)) with true in WD; [discriminate WD|].
    symmetry. apply existsb_exists. exists k. split; [exact Hk|apply one_of_in; exact Hr]. }
  rewrite WD in E1. injection E1 as <-.
  assert (Vn : forall k, dget k r = Some PNone -> dget k (listed (lower n)) = None \/ dget k (listed (lower n)) = Some PNone).
  { intros k Hk. rewrite V in Hk. unfold chosen in Hk. destruct (dget k opts) as [[]|]; try discriminate Hk; destruct (dget k (listed (lower n))); auto. }
  assert (HC : w_config w = r \/ exists s, w_config w = dset "dtype" (PStr s) r).
  { rewrite C. unfold set_dtype. destruct (energy r); [right; eexists; reflexivity|]. destruct ds; [right; eexists; reflexivity|left; reflexivity]. }
  split; [exact Nc|]. split; [intros k Hk; apply Kc; auto|]. destruct HC as [->|(s & ->)].
  - split; [eexists; exact K|exact Vn].
  - split.
    + rewrite keys_dset. destruct (has "dtype" r); [eexists; exact K|]. eexists. rewrite K, <- app_assoc. reflexivity.
    + intros k. rewrite dget_dset. destruct (String.eqb k "dtype"); [discriminate|apply Vn].
Qed.

Theorem rebuild n opts d w : NoDup (keys opts) -> good (lower n) -> init (STuple (FName n) opts) d = Ok w -> In (w_dtype w) dtypes ->
  init (STuple (FName (lower n)) (w_config w)) None = Ok w.
Proof.
  intros N Hg H Hd. pose proof (config_settled n opts d w N Hg H) as ST. apply init_named_inv in H. destruct H as (ds & r & _ & WD & F).
  pose proof F as F0. apply finish_inv in F. destruct F as (Hs & FN & out & C & M & D).
  unfold WaveletInit.init. cbn [WaveletInit.validate]. rewrite (lower_supported (lower n) Hs).
  rewrite (settled_fix (lower n) (w_config w) Hg ST). 2: { intros k Hk. apply params_no_reserved with (name := lower n), (make_fn_keys _ _ _ M), Hk. }
  cbn [bind]. unfold WaveletInit.finish. pose proof (set_dtype_spec ds r) as SD. destruct (set_dtype ds r) as [d' o]. cbn [fst snd] in *.
  assert (W' : w = W (Builtin (lower n)) o (w_dtype w)) by (destruct w; cbn in *; subst; reflexivity).
  assert (S' := Hs). apply one_of_in in S'. rewrite C in *. unfold set_dtype. destruct SD as [(E & -> & ->)|(E & -> & ->)].
  - rewrite energy_dset, E. rewrite (dset_same "dtype" (PStr "float64") (dset "dtype" (PStr "float64") r)) by (rewrite dget_dset, String.eqb_refl; reflexivity).
    rewrite S', M. cbn [bind negb]. f_equal. rewrite W', D. reflexivity.
  - destruct ds as [s|].
    + rewrite energy_dset, E, S', M. cbn [bind negb]. f_equal. rewrite W'. f_equal. rewrite D in *. eapply make_fn_str; [exact M| |exact Hd].
      rewrite dget_dset, String.eqb_refl. reflexivity.
    + rewrite E, S', M. cbn [bind negb]. f_equal. rewrite W'. f_equal. symmetry. exact D.
Qed.

(** *** orders *)
Lemma map_res_forall2 {A B} (f : A -> res B) l : forall ys, map_res f l = Ok ys -> Forall2 (fun x y => f x = Ok y) l ys.
Proof.
  induction l as [|x l IH]; intros ys H; cbn in H; [injection H as <-; constructor|]. destruct (f x) as [y|] eqn:E; [|discriminate]. cbn [bind] in H.
  destruct (map_res f l) as [zs|]; [|discriminate]. cbn [bind] in H. injection H as <-. constructor; [exact E|apply IH; reflexivity].
Qed.
Lemma Forall2_impl_ {A B} (P Q : A -> B -> Prop) l m : (forall a b, In a l -> P a b -> Q a b) -> Forall2 P l m -> Forall2 Q l m.
Proof. intros H F. induction F; constructor; [apply H; [left; reflexivity|assumption]|]. apply IHF. intros. apply H; [right; assumption|assumption]. Qed.
Lemma dget_pop k (c : dict pyv) j : dget j (filter (fun kv => negb (String.eqb k (fst kv))) c) = if String.eqb j k then None else dget j c.
Proof.
  induction c as [|[a v] c IH]; cbn; [destruct (String.eqb j k); reflexivity|]. destruct (String.eqb_spec k a) as [->|Na]; cbn; rewrite ?IH.
  - destruct (String.eqb_spec j a); reflexivity.
  - destruct (String.eqb_spec j a) as [->|]; [|reflexivity]. destruct (String.eqb_spec a k); [congruence|reflexivity].
Qed.
Lemma pop_keys k (c : dict pyv) : NoDup (keys c) -> NoDup (keys (filter (fun kv => negb (String.eqb k (fst kv))) c)).
Proof.
  induction c as [|[a v] c IH]; intros N; cbn; [constructor|]. inversion N. subst. destruct (String.eqb k a); cbn; [apply IH; assumption|].
  constructor; [|apply IH; assumption]. intros F. apply H1. unfold keys in *. apply in_map_iff in F. destruct F as ([b u] & <- & F). apply filter_In in F.
  destruct F as (F & _). apply (in_map fst) in F. exact F.
Qed.

Theorem orders n opts d b w ks ws : NoDup (keys opts) -> good (lower n) -> init (STuple (FName n) opts) d = Ok w -> In (w_dtype w) dtypes ->
  ~ In PNone ks -> order_wavelets typestr checks G b w ks = Ok ws ->
  Forall2 (fun k v => w_fn v = Builtin "gmw" /\ w_dtype v = w_dtype w /\ dget "order" (w_config v) = Some k /\
    forall j, j <> "order" -> dget j (w_config v) = dget j (w_config w)) ks ws.
Proof.
  intros N Hg H Hd NN. pose proof (config_settled n opts d w N Hg H) as ST. pose proof (config_spec n opts d w N Hg H) as (FN & Nc & _ & _).
  unfold order_wavelets, is_gmw. rewrite FN. destruct (String.eqb_spec (lower n) "gmw") as [Eg|]; [|discriminate]. cbn [negb].
  unfold dpop. destruct (has "order" (w_config w)) eqn:Ho; [|discriminate]. cbn [bind]. set (rest := filter _ (w_config w)). intros MR.
  apply map_res_forall2 in MR. revert MR. apply Forall2_impl_. intros k v Hk Hv.
  assert (Hk' : k <> PNone) by (intros ->; contradiction).
  set (o := ("order", k) :: rest) in *. assert (No : NoDup (keys o)).
  { unfold o. cbn [keys map fst]. constructor; [|apply pop_keys, Nc]. intros F. apply has_in in F. unfold has, rest in F. rewrite dget_pop in F. discriminate F. }
  assert (Hg' : good (lower "gmw")) by (change (lower "gmw") with "gmw"; rewrite <- Eg; exact Hg).
  pose proof (config_spec "gmw" o None v No Hg' Hv) as (Fv & _ & Vv & _). change (lower "gmw") with "gmw" in *. split; [exact Fv|].
  destruct ST as (_ & _ & (ex & Kx) & Vn). rewrite Eg in Kx, Vn.
  assert (Dv : forall j, j <> "order" -> chosen (listed "gmw") o j = dget j (w_config w)).
  { intros j Hj. unfold chosen. assert (E : dget j o = dget j (w_config w)).
    { unfold o. cbn [dget]. destruct (String.eqb_spec j "order"); [contradiction|]. unfold rest. rewrite dget_pop. destruct (String.eqb_spec j "order"); [contradiction|reflexivity]. }
    rewrite E. destruct (dget j (w_config w)) as [[]|] eqn:E'; try reflexivity.
    - destruct (Vn j E') as [-> | ->]; reflexivity.
    - destruct (dget j (listed "gmw")) eqn:E2; [|reflexivity]. exfalso. apply dget_none in E'. apply E'. rewrite Kx, in_app_iff. left. apply has_in. unfold has. rewrite E2. reflexivity. }
  assert (En : norm_energy "gmw" o <-> energy (w_config w) = true).
  { unfold norm_energy. change (lower "gmw") with "gmw". rewrite Dv by discriminate. unfold energy, is_str.
    destruct (dget "norm" (w_config w)) as [[]|]; split; try discriminate; [intros E; injection E as ->; reflexivity|intros E; apply String.eqb_eq in E; subst; reflexivity]. }
  (* the dtype as [rebuild] has it *)
  pose proof (rebuild n opts d w N Hg H Hd) as RB. rewrite Eg in RB.
  apply init_named_inv in RB. destruct RB as (ds & r & -> & WD & F). change (lower "gmw") with "gmw" in *. apply finish_inv in F. destruct F as (_ & _ & out & C & M & D).
  assert (r = w_config w).
  { assert (E : with_defaults G "gmw" (w_config w) = Ok (w_config w)).
    { apply settled_fix; [rewrite <- Eg; exact Hg| |intros j Hj; apply params_no_reserved with (name := "gmw"), (make_fn_keys _ _ _ M), Hj].
      split; [exact Nc|]. split; [intros j Hj; rewrite Kx, in_app_iff; left; exact Hj|]. split; [eexists; exact Kx|exact Vn]. }
    rewrite WD in E. injection E as ->. reflexivity. }
  subst r. apply init_named_inv in Hv. destruct Hv as (ds & r & -> & WD' & F). change (lower "gmw") with "gmw" in *. apply finish_inv in F. destruct F as (_ & _ & out' & C' & M' & D').
  destruct (wd_spec "gmw" o No Hg') as (r' & E1 & _ & V & _).
  { intros j Hj Hr. unfold with_defaults in WD'. replace (existsb (fun k => one_of k reserved) (keys o)) with true in WD'; [discriminate WD'|].
    symmetry. apply existsb_exists. exists j. split; [exact Hj|apply one_of_in; exact Hr]. }
  rewrite WD' in E1. injection E1 as <-.
  assert (Er : energy r = energy (w_config w)).
  { apply Bool.eq_true_iff_eq. rewrite <- En. apply (energy_iff "gmw" o r). intros j. change (lower "gmw") with "gmw". apply V. }
  assert (Hdt : dget "dtype" (w_config v) = dget "dtype" (w_config w)).
  { rewrite C', C. unfold set_dtype. rewrite Er. destruct (energy (w_config w)); cbn [snd]; [rewrite !dget_dset; reflexivity|]. rewrite V. apply Dv. discriminate. }
  assert (Hout : out' = out).
  { clear - M M' Hdt. unfold WaveletInit.make_fn in *. destruct (negb _) in M; [discriminate|]. destruct (negb _) in M'; [discriminate|].
    destruct (checks "gmw" (w_config v)) in M'; [|discriminate]. destruct (checks "gmw" (w_config w)) in M; [|discriminate]. cbn [bind] in *.
    change (String.eqb "gmw" "bump") with false in *. cbv iota in *. rewrite Hdt in M'. rewrite M in M'. injection M' as <-. reflexivity. }
  split; [|split].
  - rewrite D, D', Hout. unfold set_dtype. rewrite Er. destruct (energy (w_config w)); reflexivity.
  - rewrite Vv by discriminate. unfold chosen, o. cbn [dget]. rewrite String.eqb_refl. destruct k; try reflexivity. destruct Hk'. reflexivity.
  - intros j Hj. destruct (String.eqb_spec j "dtype") as [->|Nj]; [exact Hdt|]. rewrite Vv by exact Nj. apply Dv, Hj.
Qed.
End Thms.
