(* Sizes of the matrices returned by the material evaluators: the number of rows they declare (targetDim), the number of rows and
   columns the material methods allocate, and what is written into them.
   Values are left out; a matrix is its size (rows, columns).  n = u.cols(), m = z.rows().
   Contracts: the user's thickness, density and parameter functions return one row and one column per point. *)
From Coq Require Import List Arith Bool.
From Verif Require Import Tensor BatchModel.
Import ListNotations.

Definition size := (nat * nat)%type.
Definition obind {A B} (x : outcome A) (f : A -> outcome B) : outcome B :=
  match x with Ok a => f a | Throw => Throw | UB => UB end.

(* MaterialOutput, gsMaterialMatrixUtils.h 98-140.  CauchyStress is left out: it has no targetDim_impl, so an evaluator for it does not
   compile *)
Inductive out := Generic | Density | VectorN | VectorM | CauchyVectorN | CauchyVectorM | MatrixA | MatrixB | MatrixC | MatrixD
  | PStress | PStressDir | PStressN | PStressM | PCauchyStressN | PCauchyStressM | PStrainN | PStrainM | Stretch | StretchDir
  | TensionField | Theta | Gamma | Strain | StrainN | StrainM | Stress | StressN | StressM | CauchyStressN | CauchyStressM
  | Spec2Cov | Spec2Con | Cov2Cart | Con2Cart | StretchTransform | PStressTransform | Thickness | Parameters | Deformation.

(* gsMaterialMatrixEvalSingle::targetDim_impl, gsMaterialMatrixEval.h 130-227; npars = m_materialMat->numParameters() *)
Definition targetDim (o : out) (npars : nat) : nat :=
  match o with
  | Density | TensionField | Theta | Gamma | Thickness => 1
  | PStress | PStressN | PCauchyStressN | PStressM | PCauchyStressM | PStrainN | PStrainM => 2
  | VectorN | CauchyVectorN | VectorM | CauchyVectorM | Generic | Stretch | Strain | StrainN | StrainM | Stress | StressN | StressM
  | CauchyStressN | CauchyStressM => 3
  | MatrixA | MatrixB | MatrixC | MatrixD | StretchDir | PStressDir | Spec2Cov | Spec2Con | Cov2Cart | Con2Cart | StretchTransform
  | PStressTransform | Deformation => 9
  | Parameters => npars
  end.

(* gsMatrix<T> result(r,c); for k < n, j < m: result.col(j*n+k) = (a vector of length len).  Assigning a vector of another length to a
   column, or to a column out of range, is undefined *)
Definition fill (r c len n m : nat) : outcome size :=
  if (n * m =? 0) || (r =? len) then obind (batch n m c (fun _ _ => tt)) (fun _ => Ok (r, c)) else UB.
(* matrices with rows*cols entries read as a vector of the given length: gsMatrix::reshape only asserts the size *)
Definition reshape_vec (rows cols len : nat) : outcome nat := if rows * cols =? len then Ok len else UB.
(* the same with an intermediate reshape of a rows x cols matrix, executed for every pair (k,j) *)
Definition fill_reshaped (r c rows cols len n m : nat) : outcome size :=
  if n * m =? 0 then Ok (r, c) else obind (reshape_vec rows cols len) (fun l => fill r c l n m).

(* the methods the evaluators call *)
Inductive method := MMatrix | MVector | MCauchyVector | MStress | MCauchyStress | MPStress | MCauchyPStress | MPStressDir | MStretch
  | MStretchDir | MStrain | MPStrain | MDeformation | MSpec | MCart | MTension | MTheta | MGamma.

(* outputs gsMaterialMatrixLinear::_E understands (gsMaterialMatrixLinear.hpp 597-623); the others reach GISMO_ERROR *)
Definition E_knows (o : out) : bool :=
  match o with
  | VectorN | CauchyVectorN | StrainN | StressN | CauchyStressN | PStrainN | PStressN | PCauchyStressN | TensionField
  | VectorM | CauchyVectorM | StressM | CauchyStressM | StrainM | PStrainM | PStressM | PCauchyStressM
  | Generic | Strain | Stress | PStress => true
  | _ => false
  end.

(* methods of gsMaterialMatrixBaseDim (gsMaterialMatrixBaseDim.hpp), used by every class that does not override them.
   dirs: eval3D_pstretchDir of the object, pst: its eval3D_pstress, pse: its eval3D_pstrain *)
Definition b_deformation (n m : nat) := fill 9 (n * m) 9 n m.                            (* 176-196 *)
Definition b_strain (n m : nat) := fill 3 (n * m) 3 n m.                                 (* 270-292 *)
Definition b_stretch (n m : nat) := obind (b_deformation n m) (fun _ => fill 3 (n * m) 3 n m).             (* 198-218, _evalStretch 1335 *)
Definition b_stretchDir (n m : nat) := obind (b_deformation n m) (fun _ => fill_reshaped 9 (n * m) 3 3 9 n m).  (* 220-240, 1336 *)
Definition b_pstrain (n m : nat) := obind (b_strain n m) (fun _ => fill 3 (n * m) 3 n m).                  (* 242-267, _evalPStrain 1432 *)
Definition b_spec (dirs : outcome size) (n m : nat) := obind dirs (fun _ => fill_reshaped 9 n 3 3 9 n m).  (* 68-108 *)
Definition b_cart (n m : nat) := fill_reshaped 9 n 3 3 9 n m.                                              (* 112-153 *)
Definition b_tension (pst pse : outcome size) (n m : nat) := obind pst (fun _ => obind pse (fun _ => fill 1 (n * m) 1 n m)).  (* 294-342 *)

(* gsMaterialMatrixLinear.hpp: eval3D_stress 461-493, eval3D_matrix 178-214, eval3D_pstress 362-391, eval3D_pstressDir 395-424,
   eval3D_CauchyPStress 428-457, eval3D_CauchyStress 513-531, eval3D_vector 306, eval3D_CauchyVector 312 *)
Definition l_stress (o : out) (n m : nat) : outcome size :=
  if (n * m =? 0) || E_knows o then fill 3 (n * m) 3 n m else Throw.
Definition linear (f : method) (o : out) (n m : nat) : outcome size :=
  match f with
  | MMatrix => fill 9 (n * m) 9 n m
  | MVector | MCauchyVector | MStress | MCauchyStress => l_stress o n m
  | MPStress | MCauchyPStress => obind (l_stress o n m) (fun _ => fill 2 (n * m) 2 n m)
  | MPStressDir => obind (l_stress o n m) (fun _ => fill_reshaped 9 (n * m) 3 2 9 n m)
  | MStretch => b_stretch n m
  | MStretchDir => b_stretchDir n m
  | MStrain => b_strain n m
  | MPStrain => b_pstrain n m
  | MDeformation => b_deformation n m
  | MSpec => b_spec (b_stretchDir n m) n m
  | MCart => b_cart n m
  | MTension => b_tension (obind (l_stress Generic n m) (fun _ => fill 2 (n * m) 2 n m)) (b_pstrain n m) n m
  | MTheta | MGamma => Throw                                     (* gsMaterialMatrixBase.h 572, 581: not implemented *)
  end.

(* gsMaterialMatrixNonlinear.hpp: eval3D_matrix 509-545, eval3D_stress 709-739 (783, 882), eval3D_pstress 617-643, eval3D_pstressDir
   647-673 (two rows are allocated), eval3D_CauchyPStress 677-705, eval3D_pstretch 567-613; the output argument is ignored *)
Definition h_stress (n m : nat) : outcome size := fill 3 (n * m) 3 n m.
Definition hyper (f : method) (o : out) (n m : nat) : outcome size :=
  match f with
  | MMatrix => fill 9 (n * m) 9 n m
  | MVector | MCauchyVector | MStress | MCauchyStress => h_stress n m
  | MPStress | MCauchyPStress => obind (h_stress n m) (fun _ => fill 2 (n * m) 2 n m)
  | MPStressDir => obind (h_stress n m) (fun _ => fill_reshaped 2 (n * m) 3 2 9 n m)
  | MStretch => fill 3 (n * m) 3 n m
  | MStretchDir => b_stretchDir n m
  | MStrain => b_strain n m
  | MPStrain => b_pstrain n m
  | MDeformation => b_deformation n m
  | MSpec => b_spec (b_stretchDir n m) n m
  | MCart => b_cart n m
  | MTension => b_tension (obind (h_stress n m) (fun _ => fill 2 (n * m) 2 n m)) (b_pstrain n m) n m
  | MTheta | MGamma => Throw
  end.

(* gsMaterialMatrixComposite.hpp: eval3D_matrix 191-283 (one column per point, whatever z is; GISMO_ERROR for outputs other than the
   matrices, reached for every point and layer, at least one layer), eval3D_vector 286-331 (VectorN and VectorM only).  The stress
   methods are those of gsMaterialMatrixBase.h 462-560: not implemented *)
Definition composite (f : method) (o : out) (n m : nat) : outcome size :=
  match f with
  | MMatrix => match o with MatrixA | MatrixB | MatrixC | MatrixD => Ok (9, n) | _ => if n =? 0 then Ok (9, n) else Throw end
  | MVector => match o with VectorN | VectorM => Ok (3, n) | _ => Throw end
  | MCauchyVector | MStress | MCauchyStress | MPStress | MCauchyPStress | MPStressDir => Throw
  | MStretch => b_stretch n m
  | MStretchDir => b_stretchDir n m
  | MStrain => b_strain n m
  | MPStrain => b_pstrain n m
  | MDeformation => b_deformation n m
  | MSpec => b_spec (b_stretchDir n m) n m
  | MCart => b_cart n m
  | MTension => Throw
  | MTheta | MGamma => Throw
  end.

(* result.col(j*n+k) is read or scaled for all pairs *)
Definition touch (n m : nat) (s : size) : outcome size := obind (batch n m (snd s) (fun _ _ => tt)) (fun _ => Ok s).

(* gsMaterialMatrixTFT: eval3D_matrix 367-440 (the variant for linear inner materials asks for MatrixA instead of o), eval3D_vector 55-58, eval3D_pstress 61-87, eval3D_pstrain 90-116, eval3D_strain 119-155,
   eval3D_stress 158-200, eval3D_CauchyStress 203-250, eval3D_tensionfield 298, eval3D_theta 304-332, eval3D_gamma 336-364; eval3D_pstretch,
   eval3D_pstretchDir and eval3D_CauchyPStress are forwarded (gsMaterialMatrixTFT.h 171-192).  eval3D_CauchyVector and eval3D_pstressDir
   are not overridden: gsMaterialMatrixBase.h, not implemented.  i: the methods of the inner material *)
Definition tft (i : method -> out -> nat -> nat -> outcome size) (f : method) (o : out) (n m : nat) : outcome size :=
  let TF := i MTension TensionField n m in
  match f with
  | MMatrix => obind (i MMatrix o n m) (fun s => obind TF (fun _ => touch n m s))
  | MVector | MStress => obind (i MStress VectorN n m) (fun s => obind TF (fun _ => touch n m s))
  | MCauchyStress => obind (i MCauchyStress CauchyStressN n m) (fun s => obind TF (fun _ => touch n m s))
  | MPStress => obind TF (fun _ => obind (i MPStress o n m) (touch n m))
  | MPStrain => obind TF (fun _ => obind (i MPStrain o n m) (touch n m))
  | MStrain => obind (i MStrain o n m) (fun s => obind TF (fun _ => touch n m s))
  | MCauchyVector | MPStressDir => Throw
  | MCauchyPStress => i MCauchyPStress o n m
  | MStretch => i MStretch o n m
  | MStretchDir => i MStretchDir o n m
  | MDeformation => b_deformation n m
  | MSpec => b_spec (i MStretchDir o n m) n m
  | MCart => b_cart n m
  | MTension => TF
  | MTheta | MGamma => obind TF (fun _ => fill 1 n 1 n m)
  end.

Inductive cls := CLinear | CHyper | CComposite (layers : nat) (densities : bool) | CTFT (inner : cls).
Fixpoint call (c : cls) : method -> out -> nat -> nat -> outcome size :=
  match c with
  | CLinear => linear
  | CHyper => hyper
  | CComposite _ _ => composite
  | CTFT i => tft (call i)
  end.

(* thickness_into: BaseDim.hpp 57-64, forwarded by TFT (gsMaterialMatrixTFT.h 133).  gsMaterialMatrixComposite.hpp 171-188 does not
   resize the result (size s0 on entry): result.row(i) = Tcontainer[i].row(0) for every layer and point, and Tcontainer is only filled
   when densities were given (the loop at 179 runs over m_Rs) *)
Fixpoint thickness_into (c : cls) (n : nat) (s0 : size) : outcome size :=
  match c with
  | CLinear | CHyper => Ok (1, n)
  | CComposite L dens =>
      if (L =? 0) || (n =? 0) then Ok s0
      else if dens && (L <=? fst s0) && (snd s0 =? n) then Ok s0 else UB
  | CTFT i => thickness_into i n s0
  end.
(* parameters_into: BaseDim.hpp 157-172, not implemented for composites (gsMaterialMatrixComposite.h 93) *)
Definition parameters_into (c : cls) (npars n : nat) : outcome size :=
  match c with CComposite _ _ => Throw | _ => Ok (npars, n) end.

(* gsMaterialMatrixEvalSingle::eval_into for the output o, gsMaterialMatrixEval.hpp 174-395; s0 is the size of the result on entry.
   density_into gives one row (BaseDim.hpp 40-54, gsMaterialMatrixComposite.hpp 141-168, TFT forwards) *)
Definition evaluate (c : cls) (o : out) (npars n m : nat) (s0 : size) : outcome size :=
  match o with
  | Density => Ok (1, n)
  | VectorN | VectorM | Generic => call c MVector o n m
  | CauchyVectorN | CauchyVectorM => call c MCauchyVector o n m
  | MatrixA | MatrixB | MatrixC | MatrixD => call c MMatrix o n m
  | Stretch => call c MStretch o n m
  | PStress | PStressN | PStressM => call c MPStress o n m
  | PCauchyStressN | PCauchyStressM => call c MCauchyPStress o n m
  | PStrainN | PStrainM => call c MPStrain o n m
  | StretchDir => call c MStretchDir o n m
  | PStressDir => call c MPStressDir o n m
  | StretchTransform | PStressTransform | Spec2Cov | Spec2Con => call c MSpec o n m
  | Cov2Cart | Con2Cart => call c MCart o n m
  | TensionField => call c MTension o n m
  | Theta => call c MTheta o n m
  | Gamma => call c MGamma o n m
  | Strain | StrainN | StrainM => call c MStrain o n m
  | Stress | StressN | StressM => call c MStress o n m
  | CauchyStressN | CauchyStressM => call c MCauchyStress o n m
  | Thickness => thickness_into c n s0
  | Parameters => parameters_into c npars n
  | Deformation => call c MDeformation o n m
  end.

(* ------------------------------------------------------------------ through-thickness integration *)
(* MatIntegration of a class: gsMaterialMatrixLinear.h 169-172 Constant, gsMaterialMatrixComposite.h 71-72 Integrated, gsMaterialMatrixTFT.h
   113-121 Linear, gsMaterialMatrixBase.h 148-160 NotIntegrated *)
Inductive integration := NotIntegrated | Integrated | Constant | LinearZ.
Definition integ (c : cls) : integration :=
  match c with CLinear => Constant | CTFT _ => LinearZ | CHyper => NotIntegrated | CComposite _ _ => Integrated end.
(* the outputs gsMaterialMatrixIntegrateSingle::eval3D_impl provides, gsMaterialMatrixIntegrate.hpp 406-440 *)
Definition eval3D (c : cls) (o : out) (n m : nat) : outcome size :=
  match o with
  | MatrixA | MatrixB | MatrixC | MatrixD => call c MMatrix o n m
  | VectorN | VectorM => call c MVector o n m
  | CauchyVectorN | CauchyVectorM => call c MCauchyVector o n m
  | _ => call c MPStress o n m
  end.
(* the moment used: getMoment, gsMaterialMatrixIntegrate.h 231-266; 2 for VectorM, CauchyVectorM of constant materials (hpp 204) *)
Definition moment (o : out) (k : integration) : nat :=
  match o, k with
  | (VectorM | CauchyVectorM), Constant => 2
  | (VectorM | CauchyVectorM | MatrixB | MatrixC | PStressM), _ => 1
  | MatrixD, _ => 2
  | _, _ => 0
  end.
(* eval_into, gsMaterialMatrixIntegrate.hpp 165-245, with multiplyZ_into 367-390, multiplyLinZ_into 333-364 and
   integrateZ_into 279-328 (g = NumGauss).  The result is resized to targetDim x n; vals(i, j*n+k) is read for i < targetDim, j < g, k < n *)
Definition integrate (c : cls) (o : out) (g n : nat) (s0 : size) : outcome size :=
  let d := targetDim o 0 in
  match integ c with
  | Integrated => eval3D c o n 1
  | Constant =>
      if Nat.odd (moment o Constant) then Ok (d, n)
      else obind (thickness_into c n s0) (fun t => obind (eval3D c o n 1) (fun v =>
           if n =? 0 then Ok (d, n) else if (1 <=? fst t) && (n <=? snd t) && (fst v =? d) && (n <=? snd v) then Ok (d, n) else UB))
  | LinearZ =>
      obind (thickness_into c n s0) (fun t => obind (eval3D c o n 2) (fun v =>
        if n =? 0 then Ok (d, n) else if (1 <=? fst t) && (n <=? snd t) && (fst v =? d) && (2 * n <=? snd v) then Ok (d, n) else UB))
  | NotIntegrated =>
      obind (thickness_into c n s0) (fun t => obind (eval3D c o n g) (fun v =>
        if n * g =? 0 then Ok (d, n)
        else if (1 <=? fst t) && (n <=? snd t) && (d <=? fst v) && (n * g <=? snd v) then Ok (d, n) else UB))
  end.

(* gsMaterialMatrixLinear::C(strain), gsMaterialMatrixLinear.hpp 580-590: the entries written into gsMatrix result(2,2) *)
Definition C_entries : list (nat * nat) := [(0,0); (1,1); (2,2); (1,0); (0,1); (2,0); (0,2); (2,1); (1,2)].
Fixpoint write_entries (r c : nat) (l : list (nat * nat)) : outcome size :=
  match l with
  | [] => Ok (r, c)
  | (i, j) :: l' => if (i <? r) && (j <? c) then write_entries r c l' else UB
  end.
Definition linear_C : outcome size := write_entries 2 2 C_entries.
