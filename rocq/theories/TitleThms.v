(** The title against the signal. *)
From Coq Require Import Ascii String Reals Lra.
From Verif Require Import Py Round Cplx Squeeze Scales Search Config MakeSignals Chirp Signals Title.
Local Open Scope R_scope.
Local Open Scope string_scope.

(** the number under a key *)
Definition shows (d : dict pyv) (k : string) (r : R) : Prop := dget k d = Some (PFloat r).

Lemma dget_dset {A} k k' (v : A) d : dget k (dset k' v d) = if String.eqb k k' then Some v else dget k d.
Proof.
  induction d as [|[a w] d IH]; cbn [dset dget].
  - destruct (String.eqb_spec k k'); reflexivity.
  - destruct (String.eqb_spec k' a) as [->|Ne]; cbn [dget].
    + destruct (String.eqb_spec k a) as [->|]; reflexivity.
    + rewrite IH. destruct (String.eqb_spec k a) as [->|]; [|reflexivity].
      destruct (String.eqb_spec a k') as [->|]; [contradiction|reflexivity].
Qed.
Lemma dget_dpop k k' d : k <> k' -> dget k (MakeSignals.dpop k' d) = dget k d.
Proof.
  intros H. induction d as [|[a v] d IH]; [reflexivity|]. cbn [MakeSignals.dpop]. destruct (String.eqb_spec k' a) as [->|].
  - cbn [dget]. destruct (String.eqb_spec k a); [contradiction|reflexivity].
  - cbn [dget]. rewrite IH. reflexivity.
Qed.
Lemma shown_get signal N f d k : shown signal N f = Ok d -> k <> "N" -> k <> "SNR" -> k <> "snr" ->
  dget k d = dget k (process_varname_alias signal N f).
Proof.
  intros H H1 H2 H3. unfold shown in H. destruct (existsb _ _); [discriminate|]. injection H as <-.
  cbn [app dget]. destruct (String.eqb_spec k "N"); [contradiction|].
  assert (E : dget k (MakeSignals.dpop "snr" (process_varname_alias signal N f)) = dget k (process_varname_alias signal N f))
    by (apply dget_dpop; exact H3).
  destruct (dget "snr" _) as [v|]; [destruct (truth v)|]; cbn [app dget]; try exact E.
  destruct (String.eqb_spec k "SNR"); [contradiction|exact E].
Qed.

(** a parameter that was given is shown as given *)
Theorem given_shown signal N f d k r : shown signal N f = Ok d -> k <> "N" -> k <> "SNR" -> k <> "snr" ->
  shows f k r -> shows d k r.
Proof.
  intros H H1 H2 H3 S. unfold shows in *. rewrite (shown_get _ _ _ _ _ H H1 H2 H3). unfold process_varname_alias.
  destruct (dget "fmax" f) as [v|] eqn:E; [|exact S]. destruct v; try exact S.
  destruct (is_chirp signal); [|exact S]. rewrite dget_dset. destruct (String.eqb_spec k "fmax") as [->|]; [|exact S].
  rewrite E in S. discriminate S.
Qed.
(** [N] is the number of samples *)
Theorem N_shown signal N f d : shown signal N f = Ok d -> shows d "N" (IZR N).
Proof. unfold shown. destruct (existsb _ _); [discriminate|]. intros [= <-]. reflexivity. Qed.

(** a chirp whose [fmax] was left out: the title's [fmax] made the signal, if the number of samples is
    even *)
Theorem fmax_shown signal N f d fn s n fmin k x t : shown signal N f = Ok d -> is_chirp signal = true ->
  dget "fmax" f = Some PNone -> generate fn s n fmin None k = Ok (x, t) -> N = Z.of_nat (length x) ->
  Z.even N = true ->
  exists r, shows d "fmax" r /\ generate fn s (Some N) fmin (Some r) k = Ok (x, t).
Proof.
  intros H C F G L E. exists (IZR N / 2). split.
  - unfold shows. rewrite (shown_get _ _ _ _ _ H) by discriminate. unfold process_varname_alias. rewrite F, C.
    rewrite dget_dset. reflexivity.
  - unfold generate, process_params in G |- *. cbn [bind] in G |- *.
    set (m := match n with Some N => N | None => ts_N s end) in *.
    assert (Em : (match n with Some N => Ok N | None => Ok (ts_N s) end) = Ok m) by (subst m; destruct n; reflexivity).
    rewrite Em in G. cbn [bind] in G.
    destruct (times (or_default (k_tmin k) (d_tmin (ts_tkw s))) (or_default (k_tmax k) (d_tmax (ts_tkw s))) m
      (or_default (k_end k) (d_end (ts_tkw s)))) as [t'|] eqn:T; [|discriminate]. cbn [bind] in G.
    destruct (fn _ _ _ _) as [c|] eqn:Ec in G; [|discriminate]. cbn [bind] in G. injection G as <- <-.
    rewrite map_length in L.
    assert (m = N) as ->.
    { unfold times in T. destruct (Z.ltb_spec m 0); [discriminate|]. injection T as <-. rewrite L.
      destruct (or_default _ _); unfold linspace; rewrite tab_length; lia. }
    rewrite T. cbn [bind].
    assert (IZR (N / 2) = IZR N / 2) as <-.
    { apply Zeven_bool_iff in E. pose proof (Zeven_div2 N E) as E'. rewrite Z.div2_div in E'.
      rewrite E' at 2. rewrite mult_IZR. field. }
    rewrite Ec. reflexivity.
Qed.
(** for an odd number it made another: three samples from 0 Hz, titled 1.5 Hz *)
Definition ts3 : tself := TS 3 default_tkw.
Lemma line3 : linspace 0 1 3 = [0; 1 / 2; 1].
Proof. unfold linspace, tab. cbn. apply f_equal2; [lra|]. apply f_equal2; [lra|]. apply f_equal2; [lra|reflexivity]. Qed.
Lemma chirp3 fm : generate lchirp_fn ts3 (Some 3%Z) 0 fm (TK None None None) =
  Ok (map (fun t => cos (fst (lchirp 0 1 0 (match fm with Some f => f | None => 1 end)) t)) [0; 1 / 2; 1], [0; 1 / 2; 1]).
Proof.
  unfold generate, process_params, times. cbn [bind ts3 ts_tkw default_tkw d_tmin d_tmax d_end or_default k_tmin k_tmax k_end Z.ltb Z.compare].
  change (Z.to_nat 3) with 3%nat. rewrite line3. destruct fm; reflexivity.
Qed.
Theorem fmax_odd : exists d x t r y u,
  shown "lchirp" 3 [("fmin", PFloat 0); ("fmax", PNone)] = Ok d /\
  generate lchirp_fn ts3 (Some 3%Z) 0 None (TK None None None) = Ok (x, t) /\ shows d "fmax" r /\
  generate lchirp_fn ts3 (Some 3%Z) 0 (Some r) (TK None None None) = Ok (y, u) /\
  nth 2 x 0 = -1 /\ nth 2 y 0 = 0.
Proof.
  eexists. do 2 eexists. exists (3 / 2). do 2 eexists. split; [reflexivity|]. split; [apply chirp3|]. split; [reflexivity|].
  split; [apply chirp3|]. cbn [nth map]. unfold lchirp. cbn [fst]. split.
  - replace (((0 - 1) / (0 - 1) / 2 * (1 ^ 2 - 0 ^ 2) + (0 * 1 - 1 * 0) / (1 - 0) * (1 - 0)) * (2 * PI)) with PI by (field).
    apply cos_PI.
  - replace (((0 - 3 / 2) / (0 - 1) / 2 * (1 ^ 2 - 0 ^ 2) + (0 * 1 - 3 / 2 * 0) / (1 - 0) * (1 - 0)) * (2 * PI)) with (3 * (PI / 2)) by (field).
    apply cos_3PI2.
Qed.
