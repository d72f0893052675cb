(* Model of the Spectral (stretch based) implementation of gsMaterialMatrixNonlinear (src/gsMaterialMatrixNonlinear.hpp).
   s : m_stretches, v : columns of m_stretchvec (both set by _computeStretch, see PrincipalModel.evalStretch),
   g : columns of m_gcon_ori, J : m_J_sq.
   Simplifications: math::pow with real exponent is Rpower (positive bases), with exponent 2 a square; the side effect of
   _d2Psi_dab_vol on m_J_sq (line 2645) is modelled by letting that function use the product of the stretches; in all other
   places J is the value set by the caller (the theorems use J = J0 * c33, for which both agree).  GISMO_ENSURE checks on
   index ranges and on 3-6*nu <> 0 are not part of these definitions.  abs at line 2763 is the absolute value of T. *)
From Coq Require Import Reals List.
From Verif Require Import Tensor MetricModel LinearModel PrincipalModel NonlinearModel.
Import ListNotations.
Open Scope R_scope.

(* the Ogden law only exists in this implementation; its parameter list is m_parvals *)
Inductive slaw := L (w : law) | OG (pars : list R).

(* gsMaterialMatrixNonlinear.hpp 2432-2437 and repeated: n = (size-2)/2 terms, mu_k = par(2(k+1)), alpha_k = par(2(k+1)+1) *)
Definition ogden_terms (pars : list R) : list (R * R) :=
  map (fun k => (nth (2 * (k + 1)) pars 0, nth (2 * (k + 1) + 1) pars 0)) (seq 0 (Nat.div (length pars - 2) 2)).
Definition ogden_sum (pars : list R) (f : R -> R -> R) : R := fold_right (fun t acc => f (fst t) (snd t) + acc) 0 (ogden_terms pars).

Definition Lambda (s : vec) (al : R) : R := Rpower (s 0%nat) al + Rpower (s 1%nat) al + Rpower (s 2%nat) al.  (* 2438 *)
Definition sI1 (s : vec) : R := s 0%nat * s 0%nat + s 1%nat * s 1%nat + s 2%nat * s 2%nat.                   (* 2384 *)
Definition sI2 (s : vec) : R :=                                                                              (* 2408-2410 *)
  (s 0%nat) ^ 2 * (s 1%nat) ^ 2 + (s 1%nat) ^ 2 * (s 2%nat) ^ 2 + (s 0%nat) ^ 2 * (s 2%nat) ^ 2.
Definition dI1a (s : vec) (a : nat) : R := 2 * s a.                                                          (* 2385 *)
Definition dI2a (s : vec) (a : nat) : R := 2 * s a * (sI1 s - (s a) ^ 2).                                    (* 2411 *)
Definition d2I1 (a b : nat) : R := 2 * delta a b.                                                            (* 2521 *)
Definition d2I2 (s : vec) (a b : nat) : R :=                                                                 (* 2557 *)
  idelta a b * 4 * s a * s b + delta a b * 2 * (sI1 s - s a * s a).

(* gsMaterialMatrixNonlinear.hpp 2490-2496 *)
Definition dPsi_da_vol (p : par) (s : vec) (J : R) (a : nat) : R := bulk p / (s a * (-2)) * (1 - J).
(* gsMaterialMatrixNonlinear.hpp 2640-2651 *)
Definition d2Psi_dab_vol (p : par) (s : vec) (a b : nat) : R :=
  let J := (s 0%nat * s 1%nat * s 2%nat) ^ 2 in
  bulk p / ((-2) * s a * s b) * ((-2) * J + delta a b * (J - 1)).

(* compressible: 2377-2388 (NH), 2400-2419 (MR), 2437-2454 (OG), 2474-2486 (NH_ext) *)
Definition dPsi_da_c (w : slaw) (p : par) (s : vec) (J : R) (a : nat) : R :=
  match w with
  | L NH => mu p / 2 * Rpower J (- (1 / 3)) * (- (2 / 3) * sI1 s / s a + dI1a s a) + dPsi_da_vol p s J a
  | L MR => c1 p / 2 * Rpower J (- (1 / 3)) * (- (2 / 3) * sI1 s / s a + dI1a s a)
            + c2 p / 2 * Rpower J (- (2 / 3)) * (- (4 / 3) * sI2 s / s a + dI2a s a) + dPsi_da_vol p s J a
  | L NHe => mu p / 2 * dI1a s a - mu p / s a + lam p / (s a * 2) * (J - 1)
  | OG pars => ogden_sum pars (fun mi al => mi * Rpower J (- al / 6) * (Rpower (s a) (al - 1) - 1 / 3 * 1 / s a * Lambda s al))
               + dPsi_da_vol p s J a
  end.
(* incompressible: 2391-2398 (NH), 2421-2434 (MR), 2456-2472 (OG); there is no incompressible NH_ext *)
Definition dPsi_da_i (w : slaw) (p : par) (s : vec) (a : nat) : R :=
  match w with
  | L NH => mu p / 2 * dI1a s a
  | L MR => c1 p / 2 * dI1a s a + c2 p / 2 * dI2a s a
  | L NHe => 0
  | OG pars => ogden_sum pars (fun mi al => mi * Rpower (s a) (al - 1))
  end.
(* compressible: 2507-2527 (NH), 2540-2577 (MR), 2596-2617 (OG), 2633-2645 (NH_ext) *)
Definition d2Psi_dab_c (w : slaw) (p : par) (s : vec) (J : R) (a b : nat) : R :=
  let iso1 := - (2 / 3) * 1 / s b * (- (2 / 3) * sI1 s / s a + dI1a s a) - 2 / 3 * 1 / s a * dI1a s b
              + d2I1 a b + 2 / 3 * delta a b * sI1 s / (s a * s a) in
  let iso2 := - (4 / 3) * 1 / s b * (- (4 / 3) * sI2 s / s a + dI2a s a) - 4 / 3 * 1 / s a * dI2a s b
              + d2I2 s a b + 4 / 3 * delta a b * sI2 s / (s a * s a) in
  match w with
  | L NH => mu p / 2 * Rpower J (- (1 / 3)) * iso1 + d2Psi_dab_vol p s a b
  | L MR => c1 p / 2 * Rpower J (- (1 / 3)) * iso1 + c2 p / 2 * Rpower J (- (2 / 3)) * iso2 + d2Psi_dab_vol p s a b
  | L NHe => mu p / 2 * d2I1 a b + mu p * delta a b / (s a * s b) + lam p / (2 * s a * s b) * (2 * J - delta a b * (J - 1))
  | OG pars => ogden_sum pars (fun mi al => mi * Rpower J (- al / 6) *
        (- (al / 3) * (Rpower (s a) (al - 1) / s b + Rpower (s b) (al - 1) / s a - 1 / 3 * 1 / (s a * s b) * Lambda s al)
         + delta a b * ((al - 1) * Rpower (s a) (al - 2) + Lambda s al / 3 * Rpower (s a) (- (2)))))
        + d2Psi_dab_vol p s a b
  end.
(* incompressible: 2530-2537 (NH), 2579-2594 (MR), 2619-2631 (OG) *)
Definition d2Psi_dab_i (w : slaw) (p : par) (s : vec) (a b : nat) : R :=
  match w with
  | L NH => mu p / 2 * d2I1 a b
  | L MR => c1 p / 2 * d2I1 a b + c2 p / 2 * d2I2 s a b
  | L NHe => 0
  | OG pars => ogden_sum pars (fun mi al => mi * Rpower (s a) (al - 2) * (al - 1) * delta a b)
  end.

(* gsMaterialMatrixNonlinear.hpp 2657-2669 *)
Definition dJ_da (s : vec) (a : nat) : R := 1 / s a.
Definition d2J_dab (s : vec) (a b : nat) : R := if Nat.eqb a b then 0 else 1 / (s a * s b).
(* gsMaterialMatrixNonlinear.hpp 2673-2690 (only used by the incompressible laws) *)
Definition pr_p (w : slaw) (p : par) (s : vec) : R := s 2%nat * dPsi_da_i w p s 2.
Definition dp_da (w : slaw) (p : par) (s : vec) (a : nat) : R :=
  if Nat.eqb a 2 then s 2%nat * d2Psi_dab_i w p s 2 a + dPsi_da_i w p s 2 else s 2%nat * d2Psi_dab_i w p s 2 a.

(* gsMaterialMatrixNonlinear.hpp 2700-2715 *)
Definition Sa_c (w : slaw) (p : par) (s : vec) (J : R) (a : nat) : R := 1 / s a * dPsi_da_c w p s J a.
Definition Sa_i (w : slaw) (p : par) (s : vec) (a : nat) : R := 1 / s a * (dPsi_da_i w p s a - pr_p w p s * dJ_da s a).
(* gsMaterialMatrixNonlinear.hpp 2724-2745 *)
Definition dSa_db_c (w : slaw) (p : par) (s : vec) (J : R) (a b : nat) : R :=
  1 / s a * d2Psi_dab_c w p s J a b + (if Nat.eqb a b then - (1 / (s a) ^ 2) * dPsi_da_c w p s J a else 0).
Definition dSa_db_i (w : slaw) (p : par) (s : vec) (a b : nat) : R :=
  1 / s a * (d2Psi_dab_i w p s a b - dp_da w p s a * dJ_da s b - dp_da w p s b * dJ_da s a - pr_p w p s * d2J_dab s a b)
  + (if Nat.eqb a b then - (1 / (s a) ^ 2) * (dPsi_da_i w p s a - pr_p w p s * dJ_da s a) else 0).

(* gsMaterialMatrixNonlinear.hpp 2763-2769 / 2792-2798: the difference quotient of the principal stresses *)
Definition near_eq (s : vec) (a b : nat) : bool := if Rlt_dec (Rabs ((s a - s b) / s a)) (/ 10 ^ 14) then true else false.
Definition quotient (s : vec) (Sa : nat -> R) (dSa : nat -> nat -> R) (a b : nat) : R :=
  if near_eq s a b then 1 / (2 * s a) * (dSa b b - dSa a b) else (Sa b - Sa a) / ((s b) ^ 2 - (s a) ^ 2).
Definition shear_pair (a b c d : nat) : bool :=
  (Nat.eqb a d && Nat.eqb b c && negb (Nat.eqb a b) || Nat.eqb a c && Nat.eqb b d && negb (Nat.eqb a b))%bool.
(* gsMaterialMatrixNonlinear.hpp 2754-2779 *)
Definition Cabcd_c (w : slaw) (p : par) (s : vec) (J : R) : ten4 := fun a b c d =>
  if (Nat.eqb a b && Nat.eqb c d)%bool then 1 / s c * dSa_db_c w p s J a c
  else if shear_pair a b c d then quotient s (Sa_c w p s J) (dSa_db_c w p s J) a b else 0.
(* gsMaterialMatrixNonlinear.hpp 2781-2810 *)
Definition Cabcd_i (w : slaw) (p : par) (s : vec) : ten4 := fun a b c d =>
  if (Nat.eqb a b && Nat.eqb c d)%bool then
    1 / s c * dSa_db_i w p s a c
    + 1 / ((s a) ^ 2 * (s c) ^ 2) * ((s 2%nat) ^ 2 * d2Psi_dab_i w p s 2 2 + 2 * dPsi_da_i w p s 2 * s 2%nat)
  else if shear_pair a b c d then quotient s (Sa_i w p s) (dSa_db_i w p s) a b else 0.

(* m_gcon_ori.col(i).dot(m_stretchvec.col(a)) *)
Definition pr (g v : nat -> vec) (i a : nat) : R := dot3 (g i) (v a).
(* gsMaterialMatrixNonlinear.hpp 1720-1737 (incompressible: two terms), 1821-1833 (compressible: three terms) *)
Definition S_spec_i (w : slaw) (p : par) (s : vec) (g v : nat -> vec) : mat := fun i j =>
  sum2 (fun a => Sa_i w p s a * (pr g v i a * pr g v j a)).
Definition S_spec_c (w : slaw) (p : par) (s : vec) (J : R) (g v : nat -> vec) : mat := fun i j =>
  sum3 (fun a => Sa_c w p s J a * (pr g v i a * pr g v j a)).

(* gsMaterialMatrixNonlinear.hpp 1364-1400, 1572-1614: projection of the principal components; the loops over a < 2 and
   a < b < 2 give the terms (0,0), (0,1), (1,1).  Cn a : C_aaaa, Cx : C_0011, Cs : C_0101 *)
Definition project (Cn : nat -> R) (Cx Cs : R) (q : nat -> nat -> R) : ten4 := fun i j k l =>
    Cn 0%nat * ((q i 0%nat * q j 0%nat) * (q k 0%nat * q l 0%nat))
  + Cx * (q i 0%nat * q j 0%nat * (q k 1%nat * q l 1%nat) + q i 1%nat * q j 1%nat * (q k 0%nat * q l 0%nat))
  + Cs * (q i 0%nat * q j 1%nat * (q k 0%nat * q l 1%nat) + q i 1%nat * q j 0%nat * (q k 1%nat * q l 0%nat)
          + q i 0%nat * q j 1%nat * (q k 1%nat * q l 0%nat) + q i 1%nat * q j 0%nat * (q k 0%nat * q l 1%nat))
  + Cn 1%nat * ((q i 1%nat * q j 1%nat) * (q k 1%nat * q l 1%nat)).
(* gsMaterialMatrixNonlinear.hpp 1348-1402 *)
Definition C_spec_i (w : slaw) (p : par) (s : vec) (g v : nat -> vec) : ten4 :=
  let C := Cabcd_i w p s in
  project (fun a => C a a a a) (C 0%nat 0%nat 1%nat 1%nat) (C 0%nat 1%nat 0%nat 1%nat) (pr g v).
(* gsMaterialMatrixNonlinear.hpp 1556-1617 with 1445-1451: static condensation of the principal components, then projection *)
Definition C_spec_c (w : slaw) (p : par) (s : vec) (J : R) (g v : nat -> vec) : ten4 :=
  let C := Cabcd_c w p s J in let C2222 := C 2%nat 2%nat 2%nat 2%nat in
  project (fun a => C a a a a - (C 2%nat 2%nat a a) ^ 2 / C2222)
          (C 0%nat 0%nat 1%nat 1%nat - C 0%nat 0%nat 2%nat 2%nat * C 2%nat 2%nat 1%nat 1%nat / C2222)
          (C 0%nat 1%nat 0%nat 1%nat - (C 2%nat 2%nat 0%nat 1%nat) ^ 2 / C2222) (pr g v).
(* gsMaterialMatrixNonlinear.hpp 1562-1563: the component used by the thickness iteration *)
Definition C3333_spec (w : slaw) (p : par) (s : vec) (J : R) : R := Cabcd_c w p s J 2%nat 2%nat 2%nat 2%nat.

(* gsMaterialMatrixNonlinear.hpp 1718-1737: the incompressible stress with the stretches computed from C = diag(Gcov_def, 1/J0^2);
   vals/vecs is what the eigen-solver returns *)
Definition stress_code_i (eps : R) (w : slaw) (p : par) (m : metric) (g : nat -> vec) (vals : vec) (vecs : nat -> vec) : mat :=
  let r := evalStretch eps (cmat m (1 / J0 m)) g vals vecs in S_spec_i w p (fst r) g (snd r).
(* gsMaterialMatrixNonlinear.hpp 1345-1402 *)
Definition tangent_code_i (eps : R) (w : slaw) (p : par) (m : metric) (g : nat -> vec) (vals : vec) (vecs : nat -> vec) : ten4 :=
  let r := evalStretch eps (cmat m (1 / J0 m)) g vals vecs in C_spec_i w p (fst r) g (snd r).
(* gsMaterialMatrixNonlinear.hpp 1818-1833 and 1444-1451, 1553-1615 with m_J_sq = J0^2 c33 *)
Definition stress_code_c (eps : R) (w : slaw) (p : par) (m : metric) (c33 : R) (g : nat -> vec) (vals : vec) (vecs : nat -> vec) : mat :=
  let r := evalStretch eps (cmat m c33) g vals vecs in S_spec_c w p (fst r) (J_sq m c33) g (snd r).
Definition tangent_code_c (eps : R) (w : slaw) (p : par) (m : metric) (c33 : R) (g : nat -> vec) (vals : vec) (vecs : nat -> vec) : ten4 :=
  let r := evalStretch eps (cmat m c33) g vals vecs in C_spec_c w p (fst r) (J_sq m c33) g (snd r).
