(** [make_signals]. *)
From Coq Require Import Ascii String Reals Lra ZifyBool ZifyNat.
From Verif Require Import Py Squeeze SqueezeProofs BinProofs Config ConfigProofs MakeSignals.
Local Open Scope R_scope.
Local Open Scope string_scope.

(** ** the caller's parameters, then the defaults *)
Lemma dget_merge k d defaults : NoDup (keys defaults) ->
  dget k (merge d defaults) = match dget k d with Some u => Some u | None => dget k defaults end.
Proof.
  revert d. induction defaults as [|[k' v] rest IH]; intros d Hn; cbn [merge].
  - cbn. now destruct (dget k d).
  - inversion Hn as [|? ? Hi Hr]; subst. rewrite IH by exact Hr. rewrite dget_dset. cbn [dget].
    destruct (String.eqb_spec k k') as [->|]; [|reflexivity]. destruct (dget k' d); reflexivity.
Qed.

Definition dict_ok (o : option dflt) : Prop :=
  match o with Some (D1 d) => NoDup (keys d) | Some (D2 f a) => NoDup (keys f) /\ NoDup (keys a) | None => True end.
Definition defaults_ok (s : mself) : Prop := forall n, dict_ok (dget n (m_defaults s)).
Lemma dict_default_ok s n d : defaults_ok s -> dict_default s n = Ok d -> NoDup (keys d).
Proof.
  intros H E. specialize (H n). unfold dict_default in E. destruct (dget n (m_defaults s)) as [[d'|]|]; try discriminate; injection E as <-.
  - exact H.
  - constructor.
Qed.

(** plain names: [fparams] *)
Theorem carrier_params s c rest f a name' f' a' : defaults_ok s ->
  let name := if Ascii.eqb c "#" then rest else String c rest in
  contains "am-" name = false ->
  process_one s (RFull (String c rest) f a) = Ok (name', f', a') ->
  name' = String c rest /\ a' = a /\
  forall k, dget k f' = match dget k f with
                        | Some u => Some u
                        | None => match dget name (m_defaults s) with Some (D1 d) => dget k d | _ => None end
                        end.
Proof.
  intros Hd name Hc E. unfold process_one in E. fold name in E. rewrite Hc in E.
  destruct (dict_default s name) as [d|] eqn:Ed; [|discriminate]. cbn [bind] in E. injection E as <- <- <-.
  split; [|split; [reflexivity|]].
  - unfold name. destruct (Ascii.eqb_spec c "#") as [->|]; reflexivity.
  - intros k. rewrite dget_merge by (eapply dict_default_ok; eassumption).
    unfold dict_default in Ed. destruct (dget name (m_defaults s)) as [[d'|]|]; try discriminate; injection Ed as <-; reflexivity.
Qed.

(** modulated names: the combined name's defaults come before those of its halves *)
Definition carrier_default (s : mself) (name fname k : string) : option pyv :=
  match dget name (m_defaults s) with
  | Some (D2 f _) => dget k f
  | Some (D1 (p :: d)) => dget k (p :: d)
  | _ => match dget fname (m_defaults s) with Some (D1 d) => dget k d | _ => None end
  end.
Definition modulator_default (s : mself) (name aname k : string) : option pyv :=
  match dget name (m_defaults s) with
  | Some (D2 _ (p :: d)) => dget k (p :: d)
  | _ => match dget aname (m_defaults s) with Some (D1 d) => dget k d | _ => None end
  end.
Lemma dict_default_get s n d k : dict_default s n = Ok d ->
  dget k d = match dget n (m_defaults s) with Some (D1 d) => dget k d | _ => None end.
Proof. unfold dict_default. destruct (dget n (m_defaults s)) as [[d'|]|]; intros E; try discriminate; injection E as <-; reflexivity. Qed.
Theorem modulated_params s c rest f a name' f' a' fname aname : defaults_ok s ->
  let name := if Ascii.eqb c "#" then rest else String c rest in
  contains "am-" name = true -> starts "am-" name = false -> split2 name = Ok (fname, aname) ->
  process_one s (RFull (String c rest) f a) = Ok (name', f', a') ->
  name' = String c rest /\
  (forall k, dget k f' = match dget k f with Some u => Some u | None => carrier_default s name fname k end) /\
  (forall k, dget k a' = match dget k a with Some u => Some u | None => modulator_default s name aname k end).
Proof.
  intros Hd name Hc Hs H2 E. unfold process_one in E. fold name in E. cbv beta zeta in E. rewrite Hc, Hs, H2 in E. cbn [bind] in E.
  unfold carrier_default, modulator_default. pose proof (Hd name) as Hn. unfold dict_ok in Hn.
  assert (Hname : (if Ascii.eqb c "#" then "#" ++ name else name) = String c rest).
  { unfold name. destruct (Ascii.eqb_spec c "#") as [->|]; reflexivity. }
  destruct (dget name (m_defaults s)) as [[[|p d]|x [|p y]]|] eqn:Eg.
  all: cbn [bind] in E.
  all: try (destruct (dict_default s fname) as [fd|] eqn:Ef; [|discriminate]; cbn [bind] in E).
  all: try (destruct (dict_default s aname) as [ad|] eqn:Ea; [|discriminate]; cbn [bind] in E).
  all: rewrite Hname in E; clear Hname.
  all: injection E as <- <- <-.
  all: split; [reflexivity|].
  all: split; intros k.
  all: try rewrite <- (dict_default_get s aname _ k Ea).
  all: try rewrite <- (dict_default_get s fname _ k Ef).
  all: try exact (dget_merge k f (p :: d) Hn).
  all: try exact (dget_merge k a (p :: y) (proj2 Hn)).
  all: apply dget_merge.
  all: try exact Hn.
  all: try (eapply dict_default_ok; eassumption).
  all: try (now apply Hn).
Qed.
(** 'am-x' alone modulates a cosine *)
Theorem bare_modulator s aname f a : starts "am-" aname = true -> rstrip (is_c ":") aname = aname -> contains "am-" aname = true ->
  forall name' f' a', process_one s (RFull aname f a) = Ok (name', f', a') -> name' = "cosine:" ++ aname.
Proof.
  intros Hs Hr Hc name' f' a' E. unfold process_one in E. destruct aname as [|c rest]; [discriminate|].
  assert (Hx : Ascii.eqb c "#" = false).
  { destruct (Ascii.eqb_spec c "#") as [->|]; [discriminate Hs|reflexivity]. }
  rewrite Hx, Hc, Hs, Hr in E. cbn [bind] in E.
  destruct (dict_default s "cosine") as [fd|]; [|discriminate]. cbn [bind] in E.
  destruct (dict_default s (String c rest)) as [ad|]; [|discriminate]. cbn [bind] in E.
  destruct ad; [destruct (dict_default s (String c rest)); [|discriminate]|]; cbn in E; inversion E; reflexivity.
Qed.

(** ** lists *)
Lemma vplus_length x y : length x = length y -> length (vplus x y) = length x.
Proof. revert y. induction x as [|u x IH]; intros [|v y] H; cbn in *; try lia. rewrite IH; lia. Qed.
Lemma vplus_nth x y k : length x = length y -> (k < length x)%nat -> nth k (vplus x y) 0 = nth k x 0 + nth k y 0.
Proof. revert y k. induction x as [|u x IH]; intros [|v y] k H Hk; cbn in *; try lia. destruct k; [reflexivity|]. apply IH; lia. Qed.
Lemma vmul_length x y : length x = length y -> length (vmul x y) = length x.
Proof. revert y. induction x as [|u x IH]; intros [|v y] H; cbn in *; try lia. rewrite IH; lia. Qed.
Lemma vmul_nth x y k : length x = length y -> (k < length x)%nat -> nth k (vmul x y) 0 = nth k x 0 * nth k y 0.
Proof. revert y k. induction x as [|u x IH]; intros [|v y] k H Hk; cbn in *; try lia. destruct k; [reflexivity|]. apply IH; lia. Qed.

(** ** what one element is made of *)
Theorem make_one_spec g gen s N name f a st xc x t f' st' :
  make_one g gen s N (name, f, a) st = Ok (xc, x, t, f', st') ->
  exists fname aname fn afn x0 am kw tm,
    split_name name = Ok (fname, aname) /\
    find_method gen (lstrip (is_c "#") (under fname)) = Ok fn /\ find_method gen (under aname) = Ok afn /\
    fn N (dpop "snr" f) = Ok (x0, t) /\ join a (time_keys f a) = Ok kw /\
    afn (Some (Z.of_nat (length x0))) kw = Ok (am, tm) /\ length am = length x0 /\ length xc = length x0 /\
    (forall i, (i < length x0)%nat ->
       nth i xc 0 = nth i x0 0 * nth i am 0 +
         if starts "#" name then nth (length x0 - 1 - i) x0 0 * nth (length x0 - 1 - i) am 0 else 0) /\
    ((x = xc /\ f' = dpop "snr" f /\ st' = st) \/
     (exists r st0 e, r <> 0 /\ (dget "snr" f = Some (PFloat r) \/ dget "snr" f = None /\ m_snr s = Some r) /\
        st0 = match m_seed s with Some k => reseed g k | None => st end /\
        randn g st0 (length xc) = (e, st') /\ x = vplus xc (noise_of xc e r) /\
        f' = dset "snr" (measured xc (noise_of xc e r)) (dpop "snr" f))).
Proof.
  intros E. unfold make_one in E. destruct (split_name name) as [[fname aname]|]; [|discriminate]. cbn [bind] in E.
  destruct (find_method gen (lstrip _ _)) as [fn|] eqn:Ef; [|discriminate]. cbn [bind] in E.
  destruct (find_method gen (under aname)) as [afn|] eqn:Ea; [|discriminate]. cbn [bind] in E.
  destruct (fn N (dpop "snr" f)) as [[x0 t0]|] eqn:Ex; [|discriminate]. cbn [bind] in E.
  destruct (join a (time_keys f a)) as [kw|] eqn:Ek; [|discriminate]. cbn [bind] in E.
  destruct (afn _ kw) as [[am tm]|] eqn:Em; [|discriminate]. cbn [bind] in E.
  destruct (Nat.eqb_spec (length am) (length x0)) as [Hl|]; [|discriminate]. cbn [negb] in E.
  set (xm := vmul x0 am) in E.
  assert (Hm : length xm = length x0) by (unfold xm; apply vmul_length; lia).
  set (y := if starts "#" name then vplus xm (List.rev xm) else xm) in E.
  assert (Hy : length y = length x0).
  { unfold y. destruct (starts "#" name); [rewrite vplus_length; [exact Hm|now rewrite rev_length]|exact Hm]. }
  assert (Hv : forall i, (i < length x0)%nat -> nth i y 0 = nth i x0 0 * nth i am 0 +
         if starts "#" name then nth (length x0 - 1 - i) x0 0 * nth (length x0 - 1 - i) am 0 else 0).
  { intros i Hi. unfold y. destruct (starts "#" name).
    - rewrite vplus_nth by (rewrite ?rev_length; lia). rewrite rev_nth by lia. unfold xm.
      rewrite !vmul_nth by (rewrite ?vmul_length; lia). rewrite vmul_length by lia. do 2 f_equal; f_equal; lia.
    - unfold xm. rewrite vmul_nth by lia. ring. }
  assert (Hsame : Ok (y, y, t0, dpop "snr" f, st) = Ok (xc, x, t, f', st') ->
    xc = y /\ t = t0 /\ x = xc /\ f' = dpop "snr" f /\ st' = st) by (intros H; injection H as <- <- <- <- <-; auto).
  assert (Hnoise : forall r, (if Req_EM_T r 0 then Ok (y, y, t0, dpop "snr" f, st)
      else let st := match m_seed s with Some k => reseed g k | None => st end in
           let '(e, st) := randn g st (length y) in
           let noise := noise_of y e r in Ok (y, vplus y noise, t0, dset "snr" (measured y noise) (dpop "snr" f), st)) = Ok (xc, x, t, f', st') ->
      xc = y /\ t = t0 /\ ((x = xc /\ f' = dpop "snr" f /\ st' = st) \/
     (exists st0 e, r <> 0 /\
        st0 = match m_seed s with Some k => reseed g k | None => st end /\
        randn g st0 (length xc) = (e, st') /\ x = vplus xc (noise_of xc e r) /\
        f' = dset "snr" (measured xc (noise_of xc e r)) (dpop "snr" f)))).
  { intros r H. destruct (Req_EM_T r 0); [apply Hsame in H; intuition|]. cbv zeta in H.
    destruct (randn g _ (length y)) as [e st1] eqn:Er. injection H as <- <- <- <- <-.
    split; [reflexivity|]. split; [reflexivity|]. right. do 2 eexists. split; [assumption|]. split; [reflexivity|]. split; [exact Er|]. auto. }
  exists fname, aname, fn, afn, x0, am, kw, tm.
  assert (G : xc = y /\ t = t0 /\ ((x = xc /\ f' = dpop "snr" f /\ st' = st) \/
     (exists r st0 e, r <> 0 /\ (dget "snr" f = Some (PFloat r) \/ dget "snr" f = None /\ m_snr s = Some r) /\
        st0 = match m_seed s with Some k => reseed g k | None => st end /\
        randn g st0 (length xc) = (e, st') /\ x = vplus xc (noise_of xc e r) /\
        f' = dset "snr" (measured xc (noise_of xc e r)) (dpop "snr" f)))).
  { destruct (dget "snr" f) as [[| |r| |]|]; try discriminate.
    - apply Hsame in E. intuition.
    - destruct (Hnoise r E) as (A & B & [C|(st0 & e & C1 & C2)]); [intuition|].
      split; [exact A|]. split; [exact B|]. right. exists r, st0, e. intuition.
    - destruct (m_snr s) as [r|].
      + destruct (Hnoise r E) as (A & B & [C|(st0 & e & C1 & C2)]); [intuition|].
        split; [exact A|]. split; [exact B|]. right. exists r, st0, e. intuition.
      + apply Hsame in E. intuition. }
  destruct G as (-> & -> & G).
  split; [reflexivity|]. split; [exact Ef|]. split; [exact Ea|]. split; [exact Ex|]. split; [reflexivity|]. split; [exact Em|].
  split; [exact Hl|]. split; [exact Hy|]. split; [exact Hv|exact G].
Qed.

(** '#': the clean signal reads the same backwards *)
Theorem reflected g gen s N name f a st xc x t f' st' : starts "#" name = true ->
  make_one g gen s N (name, f, a) st = Ok (xc, x, t, f', st') ->
  forall i, (i < length xc)%nat -> nth i xc 0 = nth (length xc - 1 - i) xc 0.
Proof.
  intros Hs E i Hi. destruct (make_one_spec _ _ _ _ _ _ _ _ _ _ _ _ _ E) as (_ & _ & _ & _ & x0 & am & _ & _ & _ & _ & _ & _ & _ & _ & _ & Hl & Hv & _).
  rewrite Hs in Hv. rewrite Hl in *. rewrite !Hv by lia. replace (length x0 - 1 - (length x0 - 1 - i))%nat with i by lia. ring.
Qed.

(** ** one entry per name, in order *)
Lemma keys_dset {A} k (v : A) d : keys (dset k v d) = if has k d then keys d else (keys d ++ [k])%list.
Proof.
  unfold has, keys. induction d as [|[k' u] d IH]; [reflexivity|]. cbn [dset dget].
  destruct (String.eqb_spec k k') as [->|]; [reflexivity|]. cbn [map fst]. rewrite IH. destruct (dget k d); reflexivity.
Qed.
Definition pname (p : string * dict pyv * dict pyv) : string := fst (fst p).
(** every element made in turn *)
Inductive made (g : rng) (gen : string -> option method) (s : mself) (N : option Z)
  : list (string * dict pyv * dict pyv) -> r_st g -> dict entry -> list (dict pyv * dict pyv) -> r_st g -> Prop :=
| made_nil st : made g gen s N [] st [] [] st
| made_cons name f a ps st xc x t f' st1 es ds st2 :
    make_one g gen s N (name, f, a) st = Ok (xc, x, t, f', st1) -> made g gen s N ps st1 es ds st2 ->
    made g gen s N ((name, f, a) :: ps) st ((name, (x, t, f', a)) :: es) ((f', a) :: ds) st2.
Lemma make_all_made g gen s N ps : forall data st data' ds st',
  NoDup (keys data ++ map pname ps)%list ->
  make_all g gen s N ps data st = Ok (data', ds, st') ->
  exists es, data' = (data ++ es)%list /\ made g gen s N ps st es ds st'.
Proof.
  induction ps as [|[[name f] a] ps IH]; intros data st data' ds st' Hn E.
  - injection E as <- <- <-. exists []. rewrite app_nil_r. split; [reflexivity|constructor].
  - cbn [make_all] in E. destruct (make_one _ _ _ _ _ _) as [[[[[xc x] t] f'] st1]|] eqn:E1; [|discriminate]. cbn [bind] in E.
    destruct (make_all _ _ _ _ _ _ st1) as [[[data1 ds1] st2]|] eqn:E2; [|discriminate]. cbn [bind] in E. injection E as <- <- <-.
    cbn [map] in Hn. unfold pname at 1 in Hn. cbn [fst] in Hn.
    assert (Hni : ~ In name (keys data)).
    { intros H. apply NoDup_remove_2 in Hn. apply Hn. apply in_or_app. now left. }
    destruct (IH _ _ _ _ _ ltac:(rewrite keys_dset; unfold has; rewrite (proj2 (dget_none _ name data) Hni); rewrite <- app_assoc; exact Hn) E2) as (es & -> & H).
    exists ((name, (x, t, f', a)) :: es). split.
    + rewrite dset_notin by exact Hni. rewrite <- app_assoc. reflexivity.
    + econstructor; eassumption.
Qed.
