(** What [process_scales] accepts, and what it then computes. *)
From Coq Require Import Reals Lra String Ascii.
From Verif Require Import Py Round Cplx Padding Freqs Squeeze Scales Resol Search Ssqueeze ScaleBounds SsqCwt Validate ProcScales.
From Verif Require Config ConfigThms ConfigProofs IniProofs.
Local Open Scope R_scope.

(** ** specification *)
(** a documented number of voices *)
Definition voices (v : pyv) (z : Z) : Prop := number v = Some (IZR z) /\ (0 < z)%Z.
(** as [voices], 32 when it is not given *)
Definition voices_or_32 (v : pyv) (z : Z) : Prop := (v = PNone /\ z = 32%Z) \/ voices v z.
(** the documented strings *)
Definition kind_name (k : skind) : string :=
  match k with SLog => "log" | SPiece => "log-piecewise" | SLin => "linear" end.
Definition preset_name (p : preset) : option string :=
  match p with Maximal => Some "maximal" | Minimal => Some "minimal" | Naive => Some "naive" | PresetOther => None end%string.
Definition spelt (s : string) (k : skind) (p : option preset) : Prop :=
  match p with
  | None => s = kind_name k
  | Some p => exists n, preset_name p = Some n /\ s = (kind_name k ++ ":" ++ n)%string
  end.

Lemma positive_integer v z : assert_positive_integer v = Ok z <-> voices v z.
Proof.
  unfold assert_positive_integer, voices. destruct (number v) as [r|]; [|split; [discriminate|intros [H _]; discriminate]].
  destruct (Rlt_dec 0 r) as [Hr|Hr].
  - destruct (Req_EM_T r (IZR (Int_part r))) as [E|E].
    + split.
      * intros [= <-]. split; [f_equal; exact E|]. apply lt_IZR. rewrite <- E. exact Hr.
      * intros [[= H] Hz]. f_equal. apply eq_IZR. rewrite <- E. exact H.
    + split; [discriminate|]. intros [[= H] Hz]. exfalso. apply E. rewrite H.
      rewrite (Int_part_unique (IZR z) z) by lra. reflexivity.
  - split; [discriminate|]. intros [[= H] Hz]. exfalso. apply Hr. rewrite H. apply (IZR_lt 0), Hz.
Qed.

Lemma not_positive_integer v e : assert_positive_integer v = Err e -> e = ValueError \/ e = TypeError.
Proof.
  unfold assert_positive_integer. destruct (number v); [|intros [= <-]; right; reflexivity].
  destruct (Rlt_dec _ _); [destruct (Req_EM_T _ _); [discriminate|]|]; intros [= <-]; left; reflexivity.
Qed.

(** ** strings *)
Lemma kind_of_name k : kind_of (kind_name k) = Ok k.
Proof. destruct k; reflexivity. Qed.
Lemma kind_of_inv s k : kind_of s = Ok k -> s = kind_name k.
Proof.
  unfold kind_of. destruct (String.eqb_spec s "log"); [intros [= <-]; exact e|].
  destruct (String.eqb_spec s "log-piecewise"); [intros [= <-]; exact e|].
  destruct (String.eqb_spec s "linear"); [intros [= <-]; exact e|discriminate].
Qed.
Lemma kind_of_err s e : kind_of s = Err e -> e = ValueError.
Proof.
  unfold kind_of. destruct (String.eqb s "log"); [discriminate|].
  destruct (String.eqb s "log-piecewise"); [discriminate|].
  destruct (String.eqb s "linear"); [discriminate|]. intros [= <-]. reflexivity.
Qed.
Lemma preset_of_inv s p : preset_of s = p -> p <> PresetOther -> preset_name p = Some s.
Proof.
  unfold preset_of. destruct (String.eqb_spec s "maximal"); [intros <- _; subst; reflexivity|].
  destruct (String.eqb_spec s "minimal"); [intros <- _; subst; reflexivity|].
  destruct (String.eqb_spec s "naive"); [intros <- _; subst; reflexivity|congruence].
Qed.
Lemma preset_name_of p n : preset_name p = Some n -> preset_of n = p.
Proof. destruct p; intros [= <-]; reflexivity. Qed.

(** the strings that pass the split: a documented kind, and after a colon anything *)
Lemma split_spelt s k p : spelt s k p -> split_scales s = Ok (k, split_preset k p).
Proof.
  destruct p as [p|]; cbn [spelt].
  - intros (n & Hn & ->). destruct k, p; try discriminate Hn; injection Hn as <-; reflexivity.
  - intros ->. destruct k; reflexivity.
Qed.
Lemma split_inv s k q : split_scales s = Ok (k, q) ->
  q = Some PresetOther \/ exists p, spelt s k p /\ q = split_preset k p.
Proof.
  unfold split_scales. destruct (Config.split_on ":" s) as [|a [|b [|c t]]] eqn:E; try discriminate.
  - destruct (kind_of s) as [k'|] eqn:K; [|discriminate]. cbn [bind]. intros [= -> <-].
    right. exists None. apply kind_of_inv in K. split; [exact K|]. subst s. destruct k; reflexivity.
  - destruct (kind_of a) as [k'|] eqn:K; [|discriminate]. cbn [bind]. intros [= -> <-].
    apply kind_of_inv in K. destruct (preset_of b) eqn:P; [| | |left; reflexivity];
      right; apply preset_of_inv in P as Hn; try discriminate; eexists (Some _); cbn [spelt];
      (split; [eexists; split; [exact Hn|]|reflexivity]);
      pose proof (ConfigThms.concat_split ":" s) as C; rewrite E in C; rewrite <- C; subst a; reflexivity.
Qed.
Lemma split_err s e : split_scales s = Err e -> e = ValueError.
Proof.
  unfold split_scales. destruct (Config.split_on ":" s) as [|a [|b [|c t]]]; try (intros [= <-]; reflexivity).
  - destruct (kind_of s) eqn:K; [discriminate|]. cbn [bind]. intros [= <-]. exact (kind_of_err _ _ K).
  - destruct (kind_of a) eqn:K; [discriminate|]. cbn [bind]. intros [= <-]. exact (kind_of_err _ _ K).
Qed.

Definition rmap {A B} (f : A -> B) (r : run A) : run B := rbind r (fun a => Some (Ok (f a))).

(** a documented string and number of voices: the scales of that kind and preset *)
Theorem scales_string s k p v z N g fds ds pad fuel : spelt s k p -> voices_or_32 v z ->
  process_scales_any (VVal (PStr s)) N (Some g) v fds ds pad fuel =
  rmap (fun l => (l, k, length l, NvInt z)) (process_scales_str g N k p z fds ds pad fuel).
Proof.
  intros Hs Hv. cbn [process_scales_any]. unfold string_args. rewrite (split_spelt _ _ _ Hs). cbn [bind].
  assert (Z0 : (0 < z)%Z) by (destruct Hv as [[_ ->]|[_ H]]; [reflexivity|exact H]).
  assert (E : assert_positive_integer (if is_none v then PInt 32 else v) = Ok z).
  { destruct Hv as [[-> ->]|Hv]; [apply positive_integer; split; reflexivity|].
    destruct v; try (apply positive_integer; exact Hv). destruct Hv as [Hv _]. discriminate Hv. }
  rewrite E. cbn [bind]. unfold process_scales_str. replace (z <=? 0)%Z with false by lia.
  unfold rmap. destruct (cwt_scalebounds _ _ _ _ _ _) as [[[mn [mx|]]|e]|]; cbn [rbind]; try reflexivity.
  destruct (make_scales_bounds N (Some mn) (Some mx)) as [a b]. cbn [rbind].
  destruct (make_scales a b z k fds ds); reflexivity.
Qed.
(** anything else is refused, before any search *)
Theorem scales_string_refused s v N w fds ds pad fuel :
  ~ (w <> None /\ (exists k p, spelt s k p) /\ exists z, voices_or_32 v z) ->
  exists e, process_scales_any (VVal (PStr s)) N w v fds ds pad fuel = Some (Err e) /\
            (e = ValueError \/ e = TypeError).
Proof.
  intros H. cbn [process_scales_any]. unfold string_args.
  destruct (split_scales s) as [[k q]|e] eqn:S; cbn [bind]; [|exists e; split; [reflexivity|left; exact (split_err _ _ S)]].
  destruct w as [g|]; cbn [bind]; [|exists ValueError; split; [reflexivity|left; reflexivity]].
  destruct (assert_positive_integer _) as [z|e] eqn:E; cbn [bind];
    [|exists e; split; [reflexivity|exact (not_positive_integer _ _ E)]].
  apply positive_integer in E. apply split_inv in S. destruct S as [-> | (p & Sp & ->)].
  - exists ValueError. split; [reflexivity|left; reflexivity].
  - exfalso. apply H. split; [discriminate|]. split; [exists k, p; exact Sp|]. exists z.
    destruct v; cbn [is_none] in E; try (right; exact E). left. split; [reflexivity|].
    destruct E as [E _]. cbn in E. injection E as E. apply eq_IZR in E. lia.
Qed.
Theorem scales_other v N w nv fds ds pad fuel : (forall s, v <> PStr s) ->
  process_scales_any (VVal v) N w nv fds ds pad fuel = Some (Err TypeError).
Proof. intros H. destruct v; try reflexivity. exfalso. exact (H s eq_refl). Qed.

(** ** arrays *)
Definition nv_of (k : scale_kind) (given : option Z) : nv_out :=
  match k with KLog n => NvInt n | KPiece a => NvArr a
             | KLinear => match given with Some z => NvInt z | None => NvNone end end.
Lemma is_int_spec v n : is_int v n = true <-> number v = Some (IZR n).
Proof.
  unfold is_int. destruct (number v) as [r|]; [|split; discriminate].
  destruct (Req_EM_T r (IZR n)) as [->|E]; split; try reflexivity; try discriminate. intros [= H]. contradiction.
Qed.
Lemma api_le z : (z <= 0)%Z -> assert_positive_integer (PInt z) = Err ValueError.
Proof.
  intros H. unfold assert_positive_integer. cbn [number]. destruct (Rlt_dec 0 (IZR z)) as [r|]; [|reflexivity].
  apply (lt_IZR 0) in r. lia.
Qed.
Lemma api_num v z : number v = Some (IZR z) -> assert_positive_integer v = assert_positive_integer (PInt z).
Proof. intros H. unfold assert_positive_integer. rewrite H. reflexivity. Qed.
Lemma api_pos z : (0 < z)%Z -> assert_positive_integer (PInt z) = Ok z.
Proof. intros H. apply positive_integer. split; [reflexivity|exact H]. Qed.
(** [nv] an integer, in whatever numeric type, or not given: as in SsqCwt.v *)
Theorem scales_array f64 l v o N w fds ds pad fuel :
  match o with None => v = PNone | Some z => number v = Some (IZR z) end ->
  process_scales_any (VArr f64 l) N w v fds ds pad fuel =
  Some (do k <- process_scales_nv f64 l o; Ok (l, skind_of k, length l, nv_of k o)).
Proof.
  intros H. cbn [process_scales_any]. f_equal. unfold array_args, process_scales_nv.
  destruct (infer_scaletype f64 l) as [k|e]; [|reflexivity]. cbn [bind].
  assert (Nn : is_none v = match o with None => true | Some _ => false end).
  { destruct o; [|subst v; reflexivity]. destruct v; try reflexivity. discriminate H. }
  rewrite Nn. destruct k as [n| |a].
  - destruct o as [z|]; cbn [negb andb].
    + unfold differs. destruct (n =? z)%Z eqn:E.
      * apply Z.eqb_eq in E. subst z. rewrite (proj2 (is_int_spec v n) H). cbn [negb].
        destruct (n <=? 0)%Z eqn:L; [rewrite api_le by lia; reflexivity|rewrite api_pos by lia; reflexivity].
      * destruct (is_int v n) eqn:I; [|reflexivity]. apply is_int_spec in I. rewrite H in I. injection I as I.
        apply eq_IZR in I. lia.
    + destruct (n <=? 0)%Z eqn:L; [rewrite api_le by lia; reflexivity|rewrite api_pos by lia; reflexivity].
  - destruct o as [z|]; [|reflexivity]. rewrite (api_num _ _ H).
    destruct (z <=? 0)%Z eqn:L; [rewrite api_le by lia; reflexivity|rewrite api_pos by lia; reflexivity].
  - destruct o; reflexivity.
Qed.
(** an [nv] that is not the array's own is refused for scales found to be logarithmic *)
Theorem scales_array_log f64 l v n r N w fds ds pad fuel : infer_scaletype f64 l = Ok (KLog n) ->
  process_scales_any (VArr f64 l) N w v fds ds pad fuel = Some (Ok r) ->
  r = (l, SLog, length l, NvInt n) /\ (0 < n)%Z /\ (v = PNone \/ voices v n).
Proof.
  intros K. cbn [process_scales_any]. unfold array_args. rewrite K. cbn [bind].
  destruct (negb (is_none v) && differs n v) eqn:D; [discriminate|].
  destruct (assert_positive_integer (PInt n)) as [z|] eqn:E; [|discriminate]. cbn [bind]. intros [= <-].
  apply positive_integer in E. destruct E as [E P]. cbn in E. injection E as E. apply eq_IZR in E. subst z.
  split; [reflexivity|]. split; [exact P|]. apply Bool.andb_false_iff in D. destruct D as [D|D].
  - left. destruct v; try discriminate D. reflexivity.
  - right. split; [|exact P]. apply is_int_spec. unfold differs in D. destruct (is_int v n); [reflexivity|discriminate D].
Qed.
Theorem scales_array_linear f64 l v r N w fds ds pad fuel : infer_scaletype f64 l = Ok KLinear ->
  process_scales_any (VArr f64 l) N w v fds ds pad fuel = Some (Ok r) ->
  (v = PNone /\ r = (l, SLin, length l, NvNone)) \/
  exists z, voices v z /\ r = (l, SLin, length l, NvInt z).
Proof.
  intros K. cbn [process_scales_any]. unfold array_args. rewrite K. cbn [bind].
  destruct (is_none v) eqn:Nv.
  - cbn [bind]. intros [= <-]. left. split; [destruct v; try discriminate Nv; reflexivity|reflexivity].
  - destruct (assert_positive_integer v) as [z|] eqn:E; [|discriminate]. cbn [bind]. intros [= <-].
    right. exists z. split; [apply positive_integer; exact E|reflexivity].
Qed.
(** for two rates in one array [nv] is not looked at *)
Theorem scales_array_piece f64 l v a N w fds ds pad fuel : infer_scaletype f64 l = Ok (KPiece a) ->
  process_scales_any (VArr f64 l) N w v fds ds pad fuel = Some (Ok (l, SPiece, length l, NvArr a)).
Proof. intros K. cbn [process_scales_any]. unfold array_args. rewrite K. reflexivity. Qed.
