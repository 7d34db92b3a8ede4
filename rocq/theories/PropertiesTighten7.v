(** Sharper forms, seventh round. *)
From Coq Require Import Reals String List.
Import ListNotations.
From Verif Require Import Py Config Tighten7.

(** * C42: find_closest, and phase_cwt without trigonometric derivatives *)

(** find_closest follows parallel, and searches exactly when told to or told nothing *)
Theorem C42_search_partial smart parallel :
  (find_closest_kernel smart parallel = None <-> exact_search smart parallel) /\
  (find_closest_kernel smart parallel = Some Threads <-> smart <> Some true /\ parallel = Some true) /\
  (find_closest_kernel smart parallel = Some Serial <-> ~ exact_search smart parallel /\ parallel <> Some true).
Proof. exact (search_kernel smart parallel). Qed.
Print Assumptions C42_search_partial.

(** 'phase' refuses GPU arrays and parallel=True, else follows the global default; other difftypes are refused *)
Theorem C42_phase_partial isp d gpu parallel : d <> DTrig ->
  phase_cwt_kernel isp d gpu parallel =
    match d, gpu, parallel with
    | DPhase, false, (None | Some false) => phase_cwt_kernel isp DTrig false None
    | _, _, _ => Err ValueError
    end.
Proof. exact (phase_kernel isp d gpu parallel). Qed.
Print Assumptions C42_phase_partial.

Example C42_search_case : find_closest_kernel None None = None /\ find_closest_kernel None (Some false) = Some Serial /\ find_closest_kernel (Some true) (Some true) = None.
Proof. repeat split. Qed.
