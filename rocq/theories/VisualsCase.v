(** Concrete cases for the theorems about visuals.py. *)
From Coq Require Import Reals Lra ZifyBool ZifyNat String Ascii.
From Verif Require Import Py Round Cplx CplxProofs Freqs Search SearchProofs Scales SsqueezeProofs Visuals VisualsThms VisualsAnim.
Local Open Scope R_scope.
Ltac Zify.zify_post_hook ::= Z.div_mod_to_equations.

Lemma ticks_case : exists l, ticks (tab 15 INR) = Ok l /\ fst (nth 3 l (0%nat, LInt 0)) = 6%nat /\ shown (snd (nth 3 l (0%nat, LInt 0))) = 6.
Proof.
  destruct (ticks_right (tab 15 INR)) as (l & E & L & _ & _ & H & _); [discriminate|]. exists l. split; [exact E|].
  assert (F : fst (nth 3 l (0%nat, LInt 0)) = 6%nat). { unfold ticks in E. change (tab 15 INR) with (INR 0 :: tl (tab 15 INR)) in E at 1. cbv iota in E. injection E as <-. reflexivity. }
  split; [exact F|]. specialize (H 3%nat ltac:(lia)). destruct (nth 3 l (0%nat, LInt 0)) as [i lab]. cbn [fst snd] in *. destruct H as (Hi & _ & H). rewrite H, F.
  - rewrite nth_tab by lia. cbn. lra.
  - intros r Hr. apply (In_nth _ _ 0) in Hr. destruct Hr as (k & Hk & <-). rewrite tab_length in Hk. rewrite nth_tab by exact Hk. exists (Z.of_nat k). apply INR_IZR_INZ.
Qed.
Lemma limits_case : color_limits [(3, 4); (0, 1)] None false 1 = Ok (-5, 5).
Proof.
  unfold color_limits. assert (E1 : Cabs (3, 4) = 5). { unfold Cabs, Cnorm2. cbn [fst snd]. replace (3 * 3 + 4 * 4) with (5 * 5) by ring. apply sqrt_square. lra. }
  assert (E2 : Cabs (0, 1) = 1). { unfold Cabs, Cnorm2. cbn [fst snd]. replace (0 * 0 + 1 * 1) with (1 * 1) by ring. apply sqrt_square. lra. }
  cbn [map]. rewrite E1, E2. assert (E : lmax [5; 1] = 5).
  { destruct (lmax_in [5; 1] ltac:(discriminate)) as (i & Hi & H). pose proof (lmax_ge [5; 1] 0 ltac:(cbn; lia)) as G. cbn [nth] in G. cbn in Hi.
    destruct i as [|[|i]]; [exact (eq_sym H)|cbn [nth] in H; lra|lia]. }
  rewrite E. do 2 f_equal; lra.
Qed.
Lemma plots_case : plots [1; 2; 3; 4; 5]%nat (Some [10; 20; 30; 40; 50]%nat) None None =
  Ok [(1, Some 10); (2, Some 20); (3, Some 30); (4, Some 40); (5, Some 50)]%nat.
Proof. reflexivity. Qed.
Lemma lines_case : drawn_lines (VTupList [1; 2]) = Ok [1; 2].
Proof. apply (lines_drawn (VTupList [1; 2])); [discriminate|discriminate]. Qed.
Lemma anim_case : nondec [1; 2; 4] /\ exists l, anim_scales [1; 2; 4] = Ok l /\ In 2 l /\ nth 0 l 0 = 1 /\ last l 0 = 4.
Proof.
  assert (N : nondec [1; 2; 4]) by (intros i j [H1 H2]; cbn in H2; destruct i as [|[|[|i]]], j as [|[|[|j]]]; cbn; try lia; lra).
  split; [exact N|]. destruct (anim_right [1; 2; 4] ltac:(cbn; lia) N) as (l & E & _ & H0 & H1 & _). exists l. split; [exact E|]. split; [|split; assumption].
  apply (anim_keeps [1; 2; 4] l 1 ltac:(cbn; lia) E). cbn [length]. cbn [INR]. rewrite (Int_part_unique _ 0) by lra. cbn. lia.
Qed.
Lemma pick_case : exists s, pick_scale (fun s => s) 2048 60 = Ok s /\ 65 < s < 75.
Proof.
  assert (E : INR 2048 = 2048) by (rewrite INR_IZR_INZ; reflexivity).
  destruct (pick_scale_found (fun s => s) 2048 60 1) as (s & H & B); [exists 1; split; [lra|intros; ring]|lra|lia|left; rewrite E; cbn [pow]; lra|].
  exists s. split; [exact H|]. rewrite E in B. lra.
Qed.
Lemma axis_case : nth 2 (filterbank_axis 8) 0 = 2 / 3 * PI.
Proof. unfold filterbank_axis. change (8 / 2)%nat with 4%nat. rewrite nth_linspace by lia. cbn [INR Nat.sub]. field. Qed.
Lemma limits_two_case : visible (after_plots 2 0 100) 0 100.
Proof. apply two_plots; [lia|lra]. Qed.
