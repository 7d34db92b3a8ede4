(** Sharper forms, second round. *)
From Coq Require Import Reals Lra.
From Verif Require Import Py Chirp Signals Tighten2.
Local Open Scope R_scope.

(** * C84: parallel chirps stay parallel *)

(** a tenth of [N] hertz apart, or in the ratio 1.5 (exponential) or 3 (hyperbolic), at every time *)
Theorem C84_parallel p N f0 fmin1 fmax1 a1 b1 a2 b2 tmin tmax c1 c2 t : tmin <> tmax ->
  par_freqs p N f0 fmin1 fmax1 None None = (a1, b1, a2, b2) ->
  (forall f1, fmax1 = Some f1 -> match p with ParL => f1 + IZR N / 10 | ParE => 1.5 * f1 | ParH => 3 * f1 end <= IZR N / 2) ->
  (p = ParL \/ (0 < a1 /\ 0 < b1 /\ a1 <> b1)) ->
  par_fn p tmin tmax a1 b1 = Ok c1 -> par_fn p tmin tmax a2 b2 = Ok c2 -> apart p N (snd c1 t) (snd c2 t).
Proof. exact (par_parallel p N f0 fmin1 fmax1 a1 b1 a2 b2 tmin tmax c1 c2 t). Qed.
Print Assumptions C84_parallel.

(** nothing given *)
Theorem C84_defaults p N f0 : par_freqs p N f0 None None None None =
  match p with ParL => (f0, IZR N * 0.4, f0 + IZR N * 0.1, IZR N * 0.5) | ParE => (f0, IZR N / 3, 1.5 * f0, IZR N * 0.5) | ParH => (f0, IZR N / 6, 3 * f0, IZR N * 0.5) end.
Proof. exact (par_defaults p N f0). Qed.
Print Assumptions C84_defaults.

(** exponential, up to 20 and 30 hertz *)
Example C84_case_parallel : exists a1 b1 a2 b2 c1 c2, par_freqs ParE 64 1 None (Some 20) None None = (a1, b1, a2, b2) /\ b2 = 30 /\
  par_fn ParE 0 1 a1 b1 = Ok c1 /\ par_fn ParE 0 1 a2 b2 = Ok c2 /\ forall t, snd c2 t = 1.5 * snd c1 t.
Proof. exact par_parallel_case. Qed.
