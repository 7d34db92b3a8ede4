(** visuals.py: what the plotting functions compute before they draw.  Drawing itself
    (matplotlib) is not modelled: a plot is the data, limits, ticks and lines handed over. *)
From Coq Require Import Reals ZifyBool ZifyNat String Ascii DecimalString DecimalNat.
From Verif Require Import Py Round Cplx Freqs Search Scales.
Local Open Scope R_scope.

(** ** [_ticks] *)
(** visuals.py:950-955 [_ticks.fmt] and the label made with it: an integer ("%.d"), or hundredths ("%.2f").
    Labels that are strings are not modelled. *)
Inductive label := LInt (z : Z) | LHund (z : Z).
Definition is_integer (r : R) : bool := if Req_EM_T r (IZR (Int_part r)) then true else false.
Definition tick_label (v : list R) (r : R) : label :=
  if forallb is_integer v then LInt (Int_part r) else LHund (round_half_even (100 * r)).
Definition shown (l : label) : R := match l with LInt z => IZR z | LHund z => IZR z / 100 end.
(** visuals.py:961, 969: [np.linspace(0, len(v) - 1, 8).astype('int32')] *)
Definition tick_idxs (n : nat) : list nat := map (fun k => (k * (n - 1) / 7)%nat) (seq 0 8).
(** visuals.py:957-972: positions and labels along one axis *)
Definition ticks (v : list R) : res (list (nat * label)) :=
  match v with
  | [] => Err IndexError
  | _ => Ok (map (fun i => (i, tick_label v (nth i v 0))) (tick_idxs (length v)))
  end.

(** ** [imshow] *)
(** visuals.py:659-667: colour limits *)
Definition color_limits (data : list C) (norm : option (R * R)) (take_abs : bool) (scaling : R) : res (R * R) :=
  match norm with
  | Some (lo, hi) => Ok (lo * scaling, hi * scaling)
  | None =>
      match data with
      | [] => Err ValueError
      | _ => let mx := lmax (map Cabs data) in Ok ((if take_abs then 0 else - mx) * scaling, mx * scaling)
      end
  end.

(** ** [plots] *)
(** visuals.py:809-819: rows and columns of axes *)
Definition grid_dims (nx : nat) (nrows ncols : option nat) : res (nat * nat) :=
  match nrows, ncols with
  | None, None => Ok (nx, 1%nat)
  | None, Some c => if (c =? 0)%nat then Err ZeroDivisionError else Ok (Nat.max (nx / c) 1, c)
  | Some r, None => if (r =? 0)%nat then Err ZeroDivisionError else Ok (r, Nat.max (nx / r) 1)
  | Some r, Some c => Ok (r, c)
  end.
(** visuals.py:809-846: the pairs drawn, in order; [pkw], [skw] at their defaults.  [plt.subplots] refuses zero rows
    or columns, and for one axes returns no array, so [axes.flat] fails. *)
Definition plots {A B} (X : list A) (Y : option (list B)) (nrows ncols : option nat) : res (list (A * option B)) :=
  let Y' := match Y with Some l => map Some l | None => [None] end in
  do d <- grid_dims (length X) nrows ncols;
  let '(r, c) := d in
  if (r =? 0)%nat || (c =? 0)%nat then Err ValueError
  else if (r * c =? 1)%nat then Err AttributeError
  else Ok (firstn (r * c) (combine X Y')).

(** ** Lines *)
(** the values of [vlines] / [hlines]; tuples carry drawing options, which are dropped *)
Inductive lines_arg := VNone | VNum (r : R) | VList (l : list R) | VArray (l : list R) | VTupNum (r : R) | VTupList (l : list R).
(** visuals.py:765-768 ([if vlines:]) and 928-943 [_vhlines] *)
Definition drawn_lines (v : lines_arg) : res (list R) :=
  match v with
  | VNone => Ok []
  | VNum r => if Req_EM_T r 0 then Ok [] else Ok [r]
  | VList l => Ok l
  | VArray [] => Ok []
  | VArray [_] => Err NotModelled
  | VArray _ => Err ValueError
  | VTupNum r => Ok [r]
  | VTupList l => Ok l
  end.

(** ** [_scale_plot] *)
(** visuals.py:996-998 *)
Definition shrink (l : R * R) : R * R :=
  let '(a, b) := l in (a + 18 / 1000 * (b - a), b - 18 / 1000 * (b - a)).
(** visuals.py:990-1008: the limits of the horizontal axis; [cur] and [ycur] are those in force *)
Definition scale_plot (cur ycur : R * R) (xlims : option (R * R)) (auto equal : bool) : res (R * R) :=
  let set := match xlims with Some l => l | None => if auto then shrink cur else cur end in
  do l <- (if equal then
             match xlims with
             | None => if auto then
                         let m := Rmax (Rmax (Rabs (fst ycur)) (Rabs (snd ycur))) (Rmax (Rabs (fst cur)) (Rabs (snd cur))) in Ok (- m, m)
                       else Err UnboundLocalError
             | Some _ => Err UnboundLocalError
             end
           else Ok set);
  Ok (match xlims with Some l' => l' | None => l end).
(** limits matplotlib gives to the first curve (margin 0.05 on either side), then one call of [plot] after another
    on the same axes: [set_xlim] has turned autoscaling off *)
Definition margins (m lo hi : R) : R * R := (lo - m * (hi - lo), hi + m * (hi - lo)).
Definition after_plots (n : nat) (lo hi : R) : R * R := Nat.iter n shrink (margins (5 / 100) lo hi).

(** ** Frequency axes *)
(** visuals.py:563-565 [wavelet_filterbank] with [positives=False]: abscissas given to the samples [0 .. N//2 - 1] of
    [wavelet(scale=scales, N=N)] *)
Definition filterbank_axis (N : nat) : list R := linspace 0 PI (N / 2).
(** visuals.py:317-318, 327 [wavelet_heatmap]: values from which the tick labels of the columns
    of [wavelet(scales * xi[:N//2 + 1])] are taken *)
Definition heatmap_axis (N : nat) : list R := linspace 0 PI (N / 2).
(** visuals.py:618-620 [viz_gmw_orders]: the abscissas, and the frequencies at which the curve was evaluated: those
    of the wavelet's own [N], 1024 *)
Definition gmw_axis (N : nat) : list R := linspace 0 PI (N / 2 + 1).
Definition gmw_freqs (N : nat) : list R := firstn (N / 2 + 1) (xifn 1 1024).
(** visuals.py:52, 88-89, 98-100 [wavelet_tf]: the height of sample [j] of the reversed [psihg], and the label
    the axis has at a height *)
Definition tf_height (N j : nat) : R := nth j (firstn (N / 2 + 1) (xifn 1 N)) 0.
Definition tf_label (y : R) : R := PI - y.
(** the frequency of sample [j] of the reversed [psihg] *)
Definition tf_freq (N j : nat) : R := nth j (rev (firstn (N / 2 + 1) (xifn 1 N))) 0.

(** ** [wavelet_tf.pick_scale] *)
(** visuals.py:21-43; [std_t] is [time_resolution] as a function of the scale.  The loop gives up when [i > 100]. *)
Fixpoint pick_loop (fuel : nat) (std_t : R -> R) (lo hi s : R) : res R :=
  if Rlt_dec lo (std_t s) then if Rlt_dec (std_t s) hi then Ok s
    else match fuel with O => Err ValueError | S f => pick_loop f std_t lo hi (if Rlt_dec hi (std_t s) then s / (11 / 10) else s * (11 / 10)) end
  else match fuel with O => Err ValueError | S f => pick_loop f std_t lo hi (if Rlt_dec hi (std_t s) then s / (11 / 10) else s * (11 / 10)) end.
Definition pick_scale (std_t : R -> R) (N : nat) (s0 : R) : res R :=
  pick_loop 101 std_t (65 * (INR N / 2048)) (75 * (INR N / 2048)) s0.

(** ** [wavelet_tf_anim] *)
(** visuals.py:152-169 [_make_anim_scales], after the scales are known.  One scale is squeezed to no axis at all, on which
    [len] fails. *)
Definition anim_scales (sc : list R) : res (list R) :=
  let na := length sc in
  let rep := Nat.max (Z.to_nat (Int_part (25 / 253 * INR na))) 1 in
  if (na =? 0)%nat then Err IndexError
  else if (na =? 1)%nat then Err TypeError
  else
    let right0 := linspace (nth (na - rep) sc 0) (nth (na - 1) sc 0) (rep * 3) in
    let left0 := linspace (nth 0 sc 0) (nth rep sc 0) (rep * 4) in
    let right1 := (right0 ++ repeat (last right0 0) 6)%list in
    let left1 := (repeat (nth 0 left0 0) 8 ++ left0)%list in
    Ok (left1 ++ firstn (na - rep - rep) (skipn rep sc) ++ right1)%list.

Local Open Scope string_scope.
(** visuals.py:257-272 [unique_savepath].  A path is its stem and its suffix; [files] are the files of the directory. *)
Definition path := (string * string)%type.
Definition path_eqb (p q : path) : bool := String.eqb (fst p) (fst q) && String.eqb (snd p) (snd q).
(** [p in s] *)
Fixpoint contains (p s : string) : bool :=
  prefix p s || match s with EmptyString => false | String _ r => contains p r end.
(** [s.replace(p, '')] *)
Fixpoint drop_all (fuel : nat) (p s : string) : string :=
  match fuel with
  | O => s
  | S f =>
      match s with
      | EmptyString => EmptyString
      | String c r => if prefix p s then drop_all f p (substring (String.length p) (String.length s) s) else String c (drop_all f p r)
      end
  end.
Definition remove_all (p s : string) : string := if String.eqb p "" then s else drop_all (String.length s) p s.
Definition is_digit (c : ascii) : bool := let n := nat_of_ascii c in (48 <=? n)%nat && (n <=? 57)%nat.
Fixpoint all_chars (f : ascii -> bool) (s : string) : bool :=
  match s with EmptyString => true | String c r => f c && all_chars f r end.
(** [str(n)], and [int(s)]: strings that mix digits with something else (signs, spaces, underscores) are not modelled *)
Definition str (n : nat) : string := NilEmpty.string_of_uint (Nat.to_uint n).
Definition int (s : string) : res nat :=
  match NilEmpty.uint_of_string s with
  | Some d => Ok (Nat.of_uint d)
  | None => if all_chars (fun c => negb (is_digit c)) s then Err ValueError else Err NotModelled
  end.
(** visuals.py:265-269 *)
Fixpoint max_num (name : string) (stems : list string) (mx : nat) : res nat :=
  match stems with
  | [] => Ok mx
  | p :: rest =>
      let num := remove_all name p in
      if String.eqb num "" then max_num name rest mx
      else do k <- int num; max_num name rest (if (mx <? k)%nat then k else mx)
  end.
Definition unique_savepath (files : list path) (sp : path) : res path :=
  if existsb (path_eqb sp) files then
    do m <- max_num (fst sp) (filter (contains (fst sp)) (map fst files)) 0;
    Ok (fst sp ++ str (m + 1), snd sp)
  else Ok sp.
