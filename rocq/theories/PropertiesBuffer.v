(** C04-C06: segmenting a signal. *)
From Verif Require Import Py Parallel Buffer BufferProofs.
Local Open Scope Z_scope.

(** [n_overlap = seg_len - hop]; hop may exceed [seg_len] as in [stft]. *)
Theorem C04_buffer_slices A (zero : A) x seg hop :
  1 <= seg -> 1 <= hop -> seg <= Z.of_nat (length x) ->
  exists m, buffer zero x seg (seg - hop) false = Ok m /\
    nrows m = Z.to_nat seg /\
    Z.of_nat (ncols m) = (Z.of_nat (length x) - seg) / hop + 1 /\
    (forall i, (i < ncols m)%nat -> hop * Z.of_nat i + seg <= Z.of_nat (length x)) /\
    hop * Z.of_nat (ncols m) + seg > Z.of_nat (length x) /\
    forall i, (i < ncols m)%nat ->
      tab (nrows m) (fun r => el m r i) =
      pyslice x (hop * Z.of_nat i) (hop * Z.of_nat i + seg).
Proof. exact (buffer_spec A zero x seg hop false). Qed.
Print Assumptions C04_buffer_slices.

Theorem C05_buffer_modulated A (zero : A) x seg hop :
  1 <= seg -> 1 <= hop -> seg <= Z.of_nat (length x) ->
  exists m, buffer zero x seg (seg - hop) true = Ok m /\
    nrows m = Z.to_nat seg /\
    Z.of_nat (ncols m) = (Z.of_nat (length x) - seg) / hop + 1 /\
    (forall i, (i < ncols m)%nat -> hop * Z.of_nat i + seg <= Z.of_nat (length x)) /\
    hop * Z.of_nat (ncols m) + seg > Z.of_nat (length x) /\
    forall i, (i < ncols m)%nat ->
      tab (nrows m) (fun r => el m r i) =
      ifftshift (pyslice x (hop * Z.of_nat i) (hop * Z.of_nat i + seg)).
Proof. exact (buffer_spec A zero x seg hop true). Qed.
Print Assumptions C05_buffer_modulated.

(** [ifftshift] moves sample [n//2] to the front and [fftshift] undoes it. *)
Theorem C05_ifftshift_index A (l : list A) d i : (i < length l)%nat ->
  nth i (ifftshift l) d = nth ((i + length l / 2) mod length l) l d.
Proof. exact (nth_ifftshift A l d i). Qed.
Print Assumptions C05_ifftshift_index.
Theorem C05_fftshift_undoes A (l : list A) :
  fftshift (ifftshift l) = l /\ ifftshift (fftshift l) = l.
Proof. exact (conj (fftshift_ifftshift A l) (ifftshift_fftshift A l)). Qed.
Print Assumptions C05_fftshift_undoes.

Example C04_case : exists m, buffer 0 [1;2;3;4;5;6;7;8] 3 1 false = Ok m /\
  map (fun i => tab (nrows m) (fun r => el m r i)) (seq 0 (ncols m)) =
  [[1;2;3]; [3;4;5]; [5;6;7]].
Proof. eexists. split; [reflexivity|]. vm_compute. reflexivity. Qed.
Example C05_case : exists m, buffer 0 [1;2;3;4;5;6;7;8] 5 2 true = Ok m /\
  map (fun i => tab (nrows m) (fun r => el m r i)) (seq 0 (ncols m)) =
  [[3;4;5;1;2]; [6;7;8;4;5]].
Proof. eexists. split; [reflexivity|]. vm_compute. reflexivity. Qed.

(** Any interleaving of the prange iterations, or of the CUDA threads, fills the array
    exactly as the serial loop does. *)
Theorem C06_buffer_schedules A (zero : A) x seg hop modulated tr :
  1 <= seg -> 1 <= hop -> seg <= Z.of_nat (length x) ->
  (forall p, buffer_params (Z.of_nat (length x)) seg (seg - hop) = Ok p ->
     schedule_of (buffer_progs zero x seg p modulated) (tr p) \/
     schedule_of (buffer_gpu_progs zero x seg p modulated) (tr p)) ->
  exists m m', buffer zero x seg (seg - hop) modulated = Ok m /\
    run_buffer zero x seg (seg - hop) tr = Ok m' /\ meq m m'.
Proof. exact (buffer_schedules A zero x seg hop modulated tr). Qed.
Print Assumptions C06_buffer_schedules.

(** a schedule that is not the serial one: the two columns' stores interleaved *)
Example C06_case :
  let x := [1;2;3;4] in
  let p := BP 2 2 1 1 in
  let tr := [(1%nat, MStore (0%nat, 1%nat) (fun _ => 3)); (0%nat, MStore (0%nat, 0%nat) (fun _ => 1));
             (1%nat, MStore (1%nat, 1%nat) (fun _ => 4)); (0%nat, MStore (1%nat, 0%nat) (fun _ => 2))] in
  buffer_params 4 2 0 = Ok p /\ schedule_of (buffer_progs 0 x 2 p false) tr /\
  tr <> serial 2 (buffer_progs 0 x 2 p false).
Proof.
  split; [reflexivity|]. split.
  - intros [|[|t]]; [reflexivity..|]. unfold buffer_progs. cbn [n_segs].
    destruct (Z.ltb_spec (Z.of_nat (S (S t))) 2); [lia|]. reflexivity.
  - discriminate.
Qed.
