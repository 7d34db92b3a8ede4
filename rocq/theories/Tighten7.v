(** Which search and which phase kernel run. *)
From Coq Require Import Bool.
From Verif Require Import Py Config.

(** the exact search runs when asked for, or when neither [smart] nor [parallel] is said *)
Definition exact_search (smart parallel : option bool) : Prop := smart = Some true \/ (smart = None /\ parallel = None).
Lemma search_kernel smart parallel :
  (find_closest_kernel smart parallel = None <-> exact_search smart parallel) /\
  (find_closest_kernel smart parallel = Some Threads <-> smart <> Some true /\ parallel = Some true) /\
  (find_closest_kernel smart parallel = Some Serial <-> ~ exact_search smart parallel /\ parallel <> Some true).
Proof.
  unfold exact_search, find_closest_kernel, pick. destruct smart as [[|]|], parallel as [[|]|]; cbn;
    (split; [|split]); split; intuition congruence.
Qed.
(** without trigonometric derivatives there is no GPU and no [parallel] *)
Lemma phase_kernel isp d gpu parallel : d <> DTrig ->
  phase_cwt_kernel isp d gpu parallel =
    match d, gpu, parallel with
    | DPhase, false, (None | Some false) => phase_cwt_kernel isp DTrig false None
    | _, _, _ => Err ValueError
    end.
Proof. intros H. destruct d, gpu, parallel as [[|]|]; try (exfalso; apply H; reflexivity); reflexivity. Qed.
