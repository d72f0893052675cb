(* Model of the output functions of gsShellStressFunction (src/gsThinShellFunctions.hpp/.h), of the transformations cartcov / cartcon
   (src/gsThinShellUtils.h 1750-1960) and of gsFunctionSum / gsFunctionPieceSum (src/gsFunctionSum.h).
   Only geometries in R^3 are modelled (the branch targetDim()==2 of the transformations is not).  The expression evaluator of the core
   library evaluates an expression at the given point of the given patch (patch 0 if none is given).
   External contracts as in KinModel.v: flat(X) = [X00, X11, X01+X10]; deriv2 in the order 11, 22, 12. *)
From Coq Require Import Reals List Arith Lia.
From Verif Require Import Tensor MetricModel LinearModel KinModel KinMore.
Import ListNotations.
Open Scope R_scope.

(* ------------------------------------------------------------------ transformations *)
(* e1 = a1.normalized(); e2 = (a2-(a2.dot(e1)*e1)).normalized(): gsThinShellUtils.h 1793-1797, 1938-1942 *)
Definition cart_e1 (a1 : vec) : vec := normalize a1.
Definition cart_e2 (a1 a2 : vec) : vec := normalize (vsub a2 (vscal (dot3 a2 (cart_e1 a1)) (cart_e1 a1))).
(* result(i,j), 1799-1809 (cartcov, with b = covariant basis) and 1947-1957 (cartcon, with b = contravariant basis) *)
Definition cart_mat (b1 b2 e1 e2 : vec) : mat := fun i j =>
  match i, j with
  | 0%nat, 0%nat => dot3 e1 b1 * dot3 b1 e1
  | 0%nat, 1%nat => dot3 e1 b2 * dot3 b2 e1
  | 0%nat, _     => 2 * dot3 e1 b1 * dot3 b2 e1
  | 1%nat, 0%nat => dot3 e2 b1 * dot3 b1 e2
  | 1%nat, 1%nat => dot3 e2 b2 * dot3 b2 e2
  | 1%nat, _     => 2 * dot3 e2 b1 * dot3 b2 e2
  | _, 0%nat => dot3 e1 b1 * dot3 b1 e2
  | _, 1%nat => dot3 e1 b2 * dot3 b2 e2
  | _, _ => dot3 e1 b1 * dot3 b2 e2 + dot3 e1 b2 * dot3 b1 e2
  end.
Definition cartcov (c : jet) : mat := cart_mat (j1 c) (j2 c) (cart_e1 (j1 c)) (cart_e2 (j1 c) (j2 c)).
(* covBasis = (jacobian, normalised normal): 1901-1907; covMetric, conMetric: 1908-1910; conBasis.col(0), col(1): 1912-1913 *)
Definition covBasis (c : jet) (i : nat) : vec := match i with 0%nat => j1 c | 1%nat => j2 c | _ => unormal c end.
Definition covMetric (c : jet) : mat := fun i j => dot3 (covBasis c i) (covBasis c j).
Definition conBasis (c : jet) (i : nat) : vec := fun k =>
    inv3 (covMetric c) i 0%nat * covBasis c 0%nat k + inv3 (covMetric c) i 1%nat * covBasis c 1%nat k
  + inv3 (covMetric c) i 2%nat * covBasis c 2%nat k.
Definition cartcon (c : jet) : mat := cart_mat (conBasis c 0) (conBasis c 1) (cart_e1 (j1 c)) (cart_e2 (j1 c) (j2 c)).

(* ------------------------------------------------------------------ reported quantities *)
(* X.tr() * T.tr() (gsThinShellFunctions.hpp 95-108), as a column *)
Definition rowT (T : mat) (x : vec) : vec := mvec3 T x.
(* E_m: 0.5 * (flat(def) - flat(ori)) * diag(1,1,0.5) * That.tr(), 82-86, 92 *)
Definition flatJ (c : jet) : vec := fun a =>
  match a with 0%nat => dot3 (j1 c) (j1 c) | 1%nat => dot3 (j2 c) (j2 c) | _ => dot3 (j1 c) (j2 c) + dot3 (j2 c) (j1 c) end.
Definition rep_Em (o d : jet) : vec :=
  rowT (cartcon o) (fun a => (1/2 * (flatJ d a - flatJ o a)) * match a with 2%nat => 1/2 | _ => 1 end).
(* E_f: (deriv2(ori, n) - deriv2(def, n)) * diag(1,1,2) * That.tr(), 93 *)
Definition curvV (c : jet) : vec := fun a => dot3 (jsec c a) (unormal c).
Definition rep_Ef (o d : jet) : vec :=
  rowT (cartcon o) (fun a => (curvV o a - curvV d a) * match a with 2%nat => 2 | _ => 1 end).
(* result(0,k) = sqrt(S0 S0 + S1 S1 - S0 S1 + 3 S2 S2): 168, 170, 178, 186 *)
Definition vm (S : vec) : R :=
  sqrt (S 0%nat * S 0%nat + S 1%nat * S 1%nat - S 0%nat * S 1%nat + 3 * S 2%nat * S 2%nat).

(* ------------------------------------------------------------------ stress types *)
(* struct stress_type, gsThinShellFunctions.h 35-66 *)
Inductive stype :=
  displacement | von_mises | von_mises_membrane | von_mises_flexural | membrane | membrane_force | membrane_PK2 | membrane_force_PK2
| flexural | flexural_PK2 | flexural_moment | flexural_moment_PK2 | total | membrane_strain | flexural_strain
| principal_membrane_strain | principal_flexural_strain | principal_stretch | principal_stress | principal_stress_membrane
| principal_stress_flexural | principal_stretch_dir (i : nat) | principal_stress_dir (i : nat) | tension_field.
(* targetDim(), gsThinShellFunctions.h 108-214 *)
Definition targetDim (t : stype) : nat :=
  match t with
  | total => 0
  | von_mises | principal_stress | principal_stress_membrane | principal_stress_flexural => 2
  | von_mises_membrane | von_mises_flexural | tension_field => 1
  | _ => 3
  end.

(* what the evaluators constructed at gsThinShellFunctions.hpp 39-80 return for (patch, point); all with z = 0.
   Directions are 3x3 matrices reshaped to 9-vectors (column by column) *)
Section Env.
Context {P : Type}.
Record senv := {
  f_ori : nat -> P -> jet; f_def : nat -> P -> jet;
  f_N0 : nat -> P -> vec; f_N1 : nat -> P -> vec; f_Nc0 : nat -> P -> vec; f_Nc1 : nat -> P -> vec;
  f_S0 : nat -> P -> vec; f_S1 : nat -> P -> vec; f_Sc0 : nat -> P -> vec; f_Sc1 : nat -> P -> vec;
  f_Sp : nat -> P -> vec; f_pdir : nat -> P -> outcome vec; f_Sp0 : nat -> P -> vec; f_Sp1 : nat -> P -> vec;
  f_Ep0 : nat -> P -> vec; f_Ep1 : nat -> P -> vec; f_TF : nat -> P -> vec; f_lam : nat -> P -> vec; f_ldir : nat -> P -> vec }.

(* eval_into, gsThinShellFunctions.hpp 112-269: one column of the result.  tmp.reshape(3,3).col(i) is rows 3i..3i+2 *)
Definition stress_eval (t : stype) (e : senv) (pid : nat) (u : P) : outcome vec :=
  let Tt := cartcov (f_ori e pid u) in
  let Td := cartcov (f_def e pid u) in
  match t with
  | displacement => Ok (vsub (j0 (f_def e pid u)) (j0 (f_ori e pid u)))
  | membrane => Ok (rowT Td (f_Sc0 e pid u))
  | flexural => Ok (rowT Td (f_Sc1 e pid u))
  | membrane_PK2 => Ok (rowT Tt (f_S0 e pid u))
  | flexural_PK2 => Ok (rowT Tt (f_S1 e pid u))
  | membrane_force => Ok (rowT Td (f_Nc0 e pid u))
  | flexural_moment => Ok (rowT Td (f_Nc1 e pid u))
  | membrane_force_PK2 => Ok (rowT Tt (f_N0 e pid u))
  | flexural_moment_PK2 => Ok (rowT Tt (f_N1 e pid u))
  | von_mises =>
      let Sm := rowT Tt (f_S0 e pid u) in let Sf := rowT Tt (f_S1 e pid u) in
      Ok (fun r => match r with 0%nat => vm (vadd Sm Sf) | _ => vm (vsub Sm Sf) end)
  | von_mises_membrane => Ok (fun _ => vm (rowT Tt (f_S0 e pid u)))
  | von_mises_flexural => Ok (fun _ => vm (rowT Tt (f_S1 e pid u)))
  | membrane_strain => Ok (rep_Em (f_ori e pid u) (f_def e pid u))
  | flexural_strain => Ok (rep_Ef (f_ori e pid u) (f_def e pid u))
  | principal_membrane_strain => Ok (f_Ep0 e pid u)
  | principal_flexural_strain => Ok (f_Ep1 e pid u)
  | principal_stretch => Ok (f_lam e pid u)
  | principal_stress => Ok (f_Sp e 0%nat u)                  (* 207-210: no patch index *)
  | principal_stress_membrane => Ok (f_Sp0 e pid u)
  | principal_stress_flexural => Ok (f_Sp1 e pid u)
  | principal_stretch_dir i => Ok (fun r => f_ldir e pid u (3 * i + r)%nat)
  | principal_stress_dir i =>                                (* 240-260: no patch index *)
      match f_pdir e 0%nat u with Ok v => Ok (fun r => v (3 * i + r)%nat) | Throw => Throw | UB => UB end
  | tension_field => Ok (f_TF e pid u)
  | total => Ok vzero
  end.
End Env.
Arguments senv P : clear implicits.

(* ------------------------------------------------------------------ the material behind the evaluators *)
(* eval3D_stress(patch,u,z,out) at z = 0 for the two families of plain materials: gsMaterialMatrixLinear.hpp 461-493 with _E 594-626
   (out selects the strain), and gsMaterialMatrixNonlinear.hpp 709-713 (out is ignored) *)
Inductive smat := SLinear (E nu : R) | SHyper (law cauchy : geo -> geo -> R -> vec).
Definition sstress (m : smat) (k : strain_kind) (o d : geo) (z : R) : vec :=
  match m with
  | SLinear E nu => Svoigt E nu (Acon o) (E_tensor o d z k)
  | SHyper law _ => law o d z
  end.
(* eval3D_CauchyStress: gsMaterialMatrixLinear.hpp 513-531 (stress over detF), gsMaterialMatrixNonlinear.hpp 1011-1015 (out ignored) *)
Definition scauchy (m : smat) (k : strain_kind) (o d : geo) (detF z : R) : vec :=
  match m with
  | SLinear _ _ => fun i => sstress m k o d z i / detF
  | SHyper _ cau => cau o d z
  end.
(* eval3D_strain, gsMaterialMatrixBaseDim.hpp 270-292, and the evaluator outputs StrainN, StrainM, PStrainN, PStrainM, which all
   call the same function without an output argument (gsMaterialMatrixEval.hpp 286-292, 361-370) *)
Definition sstrain (k : strain_kind) (o d : geo) (z : R) : vec := strainV o d z.
(* eval3D_pstressDir.  The linear material first calls eval3D_stress with the output PStressDir (gsMaterialMatrixLinear.hpp 397), which
   _E does not know: GISMO_ERROR at 623.  The hyperelastic ones ignore the output; res.second of _evalPStress is a 3x2 matrix
   (gsMaterialMatrixBaseDim.hpp 1389, 1418), reshaped to 9x1 (gsMaterialMatrixNonlinear.hpp 670): the last three entries lie outside
   the matrix (gsMatrix::reshape only asserts the size) *)
Definition reshape9 (rows cols : nat) (v : vec) : outcome vec := if Nat.eqb (rows * cols) 9 then Ok v else UB.
Definition spdir (m : smat) (dirs : vec) : outcome vec :=
  match m with SLinear _ _ => Throw | SHyper _ _ => reshape9 3 2 dirs end.

(* the evaluators of the stress function for plain materials m (one per patch); the remaining ones are taken from b.  peig stands for the
   eigenvalue computation of _evalPStrain *)
Definition env_of {P} (m : nat -> smat) (detF : nat -> P -> R) (peig : geo -> vec -> vec) (dirs : nat -> P -> vec) (b : senv P) : senv P :=
  let o p u := geo_of (f_ori b p u) in
  let d p u := geo_of (f_def b p u) in
  {| f_ori := f_ori b; f_def := f_def b; f_N0 := f_N0 b; f_N1 := f_N1 b; f_Nc0 := f_Nc0 b; f_Nc1 := f_Nc1 b;
     f_S0 := fun p u => sstress (m p) KMembrane (o p u) (d p u) 0;
     f_S1 := fun p u => sstress (m p) KBending (o p u) (d p u) 0;
     f_Sc0 := fun p u => scauchy (m p) KMembrane (o p u) (d p u) (detF p u) 0;
     f_Sc1 := fun p u => scauchy (m p) KBending (o p u) (d p u) (detF p u) 0;
     f_Sp := f_Sp b; f_pdir := fun p u => spdir (m p) (dirs p u); f_Sp0 := f_Sp0 b; f_Sp1 := f_Sp1 b;
     f_Ep0 := fun p u => peig (o p u) (sstrain KMembrane (o p u) (d p u) 0);
     f_Ep1 := fun p u => peig (o p u) (sstrain KBending (o p u) (d p u) 0);
     f_TF := f_TF b; f_lam := f_lam b; f_ldir := f_ldir b |}.

(* ------------------------------------------------------------------ function sums *)
(* one piece of a summand: values, rows of deriv_into and deriv2_into, evalAllDers_into and support() (pairs of lower and upper bound) *)
Record piece := { p_val : vec -> vec; p_der : vec -> vec; p_der2 : vec -> vec; p_all : vec -> nat -> list vec; p_supp : list (R * R) }.
(* a function set is the list of its pieces *)
Definition fset := list piece.
(* m_functions[i]->piece(k): out of range is undefined (gsFunctionSum.h 79-93 only asserts) *)
Definition get_piece (f : fset) (k : nat) : outcome piece := match nth_error f k with Some p => Ok p | None => UB end.
(* eval_into 140-149, deriv_into 152-162, deriv2_into 165-175: first summand, then += for the others *)
Fixpoint accum (get : piece -> vec) (fs : list fset) (k : nat) (acc : vec) : outcome vec :=
  match fs with
  | [] => Ok acc
  | f :: fs' => match get_piece f k with Ok p => accum get fs' k (vadd acc (get p)) | Throw => Throw | UB => UB end
  end.
Definition sum_with (get : piece -> vec) (fs : list fset) (k : nat) : outcome vec :=
  match fs with
  | [] => UB
  | f :: fs' => match get_piece f k with Ok p => accum get fs' k (get p) | Throw => Throw | UB => UB end
  end.
Definition sum_val fs k u := sum_with (fun p => p_val p u) fs k.
Definition sum_der fs k u := sum_with (fun p => p_der p u) fs k.
Definition sum_der2 fs k u := sum_with (fun p => p_der2 p u) fs k.
(* evalAllDers_into 179-191: result[j] += tmp[j] for j < result.size(); tmp shorter than result is undefined *)
Fixpoint addall (r t : list vec) : outcome (list vec) :=
  match r, t with
  | [], _ => Ok []
  | x :: r', y :: t' => match addall r' t' with Ok l => Ok (vadd x y :: l) | Throw => Throw | UB => UB end
  | _ :: _, [] => UB
  end.
Fixpoint accum_all (fs : list fset) (k : nat) (u : vec) (n : nat) (acc : list vec) : outcome (list vec) :=
  match fs with
  | [] => Ok acc
  | f :: fs' => match get_piece f k with
                | Ok p => match addall acc (p_all p u n) with Ok a => accum_all fs' k u n a | Throw => Throw | UB => UB end
                | Throw => Throw | UB => UB end
  end.
Definition sum_all (fs : list fset) (k : nat) (u : vec) (n : nat) : outcome (list vec) :=
  match fs with
  | [] => UB
  | f :: fs' => match get_piece f k with Ok p => accum_all fs' k u n (p_all p u n) | Throw => Throw | UB => UB end
  end.
(* support of a piece of the sum, constructor 112-127: lower bounds are lowered, upper bounds raised *)
Definition widen (a b : R * R) : R * R :=
  ((if Rlt_dec (fst b) (fst a) then fst b else fst a), (if Rlt_dec (snd a) (snd b) then snd b else snd a)).
Fixpoint widen_all (s t : list (R * R)) : outcome (list (R * R)) :=
  match s, t with
  | [], _ => Ok []
  | a :: s', b :: t' => match widen_all s' t' with Ok l => Ok (widen a b :: l) | Throw => Throw | UB => UB end
  | _ :: _, [] => UB
  end.
Fixpoint accum_supp (fs : list fset) (k : nat) (s : list (R * R)) : outcome (list (R * R)) :=
  match fs with
  | [] => Ok s
  | f :: fs' => match get_piece f k with
                | Ok p => match widen_all s (p_supp p) with Ok s' => accum_supp fs' k s' | Throw => Throw | UB => UB end
                | Throw => Throw | UB => UB end
  end.
Definition sum_supp (fs : list fset) (k : nat) : outcome (list (R * R)) :=
  match fs with
  | [] => UB
  | f :: fs' => match get_piece f k with Ok p => accum_supp fs' k (p_supp p) | Throw => Throw | UB => UB end
  end.

(* lifetimes: m_pieces store the address of the sum they were created for (line 92: gsFunctionPieceSum(this,p)); the implicit copy
   constructor copies m_functions and m_pieces member by member, so the pieces of a copy still refer to the original.
   A sum object is its address and its member lists; a heap maps addresses to live objects *)
Record fsum := { s_funcs : list fset; s_owner : nat }.
Definition heap := nat -> option fsum.
Definition construct (a : nat) (fs : list fset) (h : heap) : heap :=
  fun x => if Nat.eqb x a then Some {| s_funcs := fs; s_owner := a |} else h x.
Definition copy_sum (a b : nat) (h : heap) : heap := fun x => if Nat.eqb x a then h b else h x.
Definition destroy (a : nat) (h : heap) : heap := fun x => if Nat.eqb x a then None else h x.
(* sum.piece(k).eval_into(u): m_geom->func(i) goes through the stored address *)
Definition eval_piece (h : heap) (a k : nat) (u : vec) : outcome vec :=
  match h a with
  | None => UB
  | Some o => match h (s_owner o) with None => UB | Some o' => sum_val (s_funcs o') k u end
  end.
(* sum.func(i): through the object itself *)
Definition own_funcs (h : heap) (a : nat) : option (list fset) := option_map s_funcs (h a).
