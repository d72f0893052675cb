(* Values of the tension-field material that report the wrinkles themselves: angle and amount. *)
From Coq Require Import Reals List.
From Verif Require Import Tensor TFTModel TfrModel.
Open Scope R_scope.

(* gsMaterialMatrixTFT.hpp 304-332 (eval3D_theta) and 336-364 (eval3D_gamma) for one point: None is the NAN written at 318, 350 for taut
   and slack points; [tf] is the tension field value, [theta] the search (eval_theta). *)
Definition report {A} (tf : R) (w : outcome A) : outcome (option A) :=
  if Req_EM_T tf 1 then Ok None else if Req_EM_T tf (-1) then Ok None
  else if Req_EM_T tf 0 then bindo w (fun x => Ok (Some x)) else Throw.
Definition tft_theta (C : mat) (E : vec) (tf : R) (theta : mat -> vec -> vec -> outcome R) : outcome (option R) :=
  report tf (theta C (inner_stress C E) E).
(* _compute_gamma 579-592 *)
Definition tft_gamma (C : mat) (E : vec) (tf : R) (theta : mat -> vec -> vec -> outcome R) : outcome (option R) :=
  report tf (bindo (theta C (inner_stress C E) E) (fun th => Ok (gamma th C (inner_stress C E)))).
(* gsMaterialMatrixTFT.hpp 117-152 (eval3D_strain) for one point *)
Definition tft_strain (mult : R) (C : mat) (E : vec) (tf : R) (theta : mat -> vec -> vec -> outcome R) : outcome vec :=
  strain_at (fun _ => tf) mult 1 (fun _ _ => C) (fun _ _ => inner_stress C E) (fun _ _ => E) theta 0 0 E.
