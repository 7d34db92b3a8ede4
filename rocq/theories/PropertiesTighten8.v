(** Sharper forms, eighth round. *)
From Coq Require Import Reals List.
Import ListNotations.
From Verif Require Import Py Cplx FftCache FftCacheProofs Tighten8.
Local Open Scope R_scope.

(** * C40: what one call computes, as sums *)

(** fft and ifft along an axis: shape, dtype and every entry *)
Theorem C40_values_partial x axis no pat len : fits x axis len -> a_dtype x <> OtherDtype -> patience_ok pat -> exists y z,
  alone (FC false false axis no pat x) = Ok (Some y) /\ alone (FC true false axis no pat x) = Ok (Some z) /\
  a_shape y = a_shape x /\ a_shape z = a_shape x /\ a_dtype y = (if double (a_dtype x) then C128 else C64) /\ a_dtype z = a_dtype y /\
  forall i k, line y axis i k = Csum len (fun m => Cmul (line x axis i m) (cis (- (2 * PI * INR k * INR m / INR len)))) /\
              line z axis i k = Cmul (RtoC (/ INR len)) (Csum len (fun m => Cmul (line x axis i m) (cis (2 * PI * INR k * INR m / INR len)))).
Proof. exact (fft_values x axis no pat len). Qed.
Print Assumptions C40_values_partial.

(** ifft undoes fft and fft undoes ifft *)
Theorem C40_back_partial x axis no pat len : fits x axis len -> (1 <= len)%nat -> a_dtype x <> OtherDtype -> patience_ok pat -> exists y z y' z',
  alone (FC false false axis no pat x) = Ok (Some y) /\ alone (FC true false axis no pat y) = Ok (Some z) /\
  alone (FC true false axis no pat x) = Ok (Some y') /\ alone (FC false false axis no pat y') = Ok (Some z') /\
  a_shape z = a_shape x /\ a_shape z' = a_shape x /\ forall i m, (m < len)%nat -> line z axis i m = line x axis i m /\ line z' axis i m = line x axis i m.
Proof. exact (fft_back x axis no pat len). Qed.
Print Assumptions C40_back_partial.

(** rfft, and irfft told the length *)
Theorem C40_real_partial x axis no pat len : fits x axis len -> (1 <= len)%nat -> (a_dtype x = F32 \/ a_dtype x = F64) -> patience_ok pat -> exists y z,
  alone (FC false true axis no pat x) = Ok (Some y) /\ alone (FC true true axis (Some (Z.of_nat len)) pat y) = Ok (Some z) /\
  a_shape y = reshaped x axis (len / 2 + 1) /\ a_dtype y = (if double (a_dtype x) then C128 else C64) /\ a_shape z = a_shape x /\ a_dtype z = a_dtype x /\
  (forall i k, line y axis i k = Csum len (fun m => Cmul (RtoC (Re (line x axis i m))) (cis (- (2 * PI * INR k * INR m / INR len))))) /\
  forall i m, (m < len)%nat -> line z axis i m = RtoC (Re (line x axis i m)).
Proof. exact (rfft_values x axis no pat len). Qed.
Print Assumptions C40_real_partial.

(** irfft told no length returns an even number of samples *)
Theorem C40_even_partial x axis no pat len : fits x axis len -> (2 <= len)%nat -> (a_dtype x = F32 \/ a_dtype x = F64) -> patience_ok pat -> exists y z,
  alone (FC false true axis no pat x) = Ok (Some y) /\ alone (FC true true axis None pat y) = Ok (Some z) /\ fits z axis (2 * (len / 2)).
Proof. exact (irfft_default x axis no pat len). Qed.
Print Assumptions C40_even_partial.

(** a 2-by-3 array of doubles *)
Example C40_sheet_case : exists y z, alone (FC false true 1 None 1 sheet) = Ok (Some y) /\ a_shape y = [2; 2]%nat /\ alone (FC true true 1 (Some 3%Z) 1 y) = Ok (Some z) /\
  a_shape z = [2; 3]%nat /\ a_data z 1 2 = RtoC 5.
Proof. exact sheet_case. Qed.
