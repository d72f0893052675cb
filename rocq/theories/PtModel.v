(* Model of the evaluation of a hyperelastic or linear material at one point: the members _getMetric leaves behind for
   shell elements (dim 3), planar elements (dim 2) and a prescribed deformation tensor, and what the evaluators
   eval3D_stress / eval3D_matrix / eval3D_vector_C / eval3D_matrix_C / eval3D_dmatrix make of them
   (src/gsMaterialMatrixBaseDim.hpp, gsMaterialMatrixNonlinear.hpp, gsMaterialMatrixLinear.hpp). *)
From Coq Require Import Reals List Bool.
From Verif Require Import Tensor MetricModel LinearModel NonlinearModel SpectralModel Newton33Model PrincipalModel BatchModel SizeModel StretchModel.
Import ListNotations.
Open Scope R_scope.

(* the members of one configuration (m_Acov_x, m_Acon_x, m_Bcov_x, m_Gcov_x, m_Gcon_x, m_acov_x, m_acon_x, m_gcov_x, m_gcon_x,
   x = ori or def); basis vectors are the columns *)
Record half := mkHalf { hAcov : mat; hAcon : mat; hBcov : mat; hGcov : mat; hGcon : mat;
                        hacov : nat -> vec; hacon : nat -> vec; hgcov : nat -> vec; hgcon : nat -> vec }.

(* dim 3, gsMaterialMatrixBaseDim.hpp 1072-1130 / 1203-1261; 1128 and 1259 store the covariant tangents in m_acon_x *)
Definition half3 (g : geo) (z : R) : half :=
  mkHalf (Acov g) (Acon g) (Bcov g) (Gcov g z) (Gcon g z) (tang g) (tang g) (gcov g z) (gcon g z).

(* dim 2, gsMaterialMatrixBaseDim.hpp 1136-1191 / 1267-1320 with 506-531 / 624-648; the height is not read *)
Definition gcov2 (g : geo2) (i : nat) : vec :=
  match i with
  | 0%nat | 1%nat => fun c => match c with 0%nat | 1%nat => tang2 g i c | _ => 0 end
  | _ => fun c => match c with 0%nat | 1%nat => 0 | _ => 1 end
  end.
Definition gcon2 (g : geo2) (c : nat) : vec := fun k =>
  Gcon2 g c 0%nat * gcov2 g 0%nat k + Gcon2 g c 1%nat * gcov2 g 1%nat k + Gcon2 g c 2%nat * gcov2 g 2%nat k.
Definition acon2 (g : geo2) (i : nat) : vec := fun c => inv2 (Acov2 g) i 0%nat * tang2 g 0%nat c + inv2 (Acov2 g) i 1%nat * tang2 g 1%nat c.
Definition half2 (g : geo2) (z : R) : half :=
  mkHalf (Acov2 g) (Acon2_member g) (fun _ _ => 0) (Gcov2 g) (Gcon2 g) (tang2 g) (acon2 g) (gcov2 g) (gcon2 g).

(* prescribed deformation tensor Cmat = (C11, C22, C12), gsMaterialMatrixBaseDim.hpp 1043-1068: the in-plane block is
   inverted on its own, every other member is set to zero.  (Entries with an index above 2 do not exist; the patterns
   below give them the value of index 2, as inv3 does.) *)
Definition G_of (C : vec) : mat := fun i j =>
  match i, j with
  | 0%nat, 0%nat => C 0%nat
  | 1%nat, 1%nat => C 1%nat
  | 0%nat, 1%nat | 1%nat, 0%nat => C 2%nat
  | 2%nat, 2%nat => 1
  | _, _ => 0
  end.
Definition Gi_of (C : vec) : mat := fun i j =>
  match i, j with
  | 0%nat, 0%nat | 0%nat, 1%nat | 1%nat, 0%nat | 1%nat, 1%nat => inv2 (G_of C) i j
  | 0%nat, _ | 1%nat, _ | _, 0%nat | _, 1%nat => 0
  | _, _ => 1
  end.
Definition halfC (C : vec) : half :=
  mkHalf mzero mzero mzero (G_of C) (Gi_of C) (fun _ => vzero) (fun _ => vzero) (fun _ => vzero) (fun _ => vzero).

(* gsMaterialMatrixBaseDim.hpp 1003-1016 / 1024-1037: m_J0_sq from the two stored metrics (see MetricModel.J0_sq) *)
Definition ratio (Go Gd : mat) : outcome R :=
  let det_ori := det3 Go in let det_def := det3 Gd in
  if Req_EM_T det_ori 0 then (if Req_EM_T det_def 0 then Ok 1 else UB)
  else if Rle_dec 0 (det_def / det_ori) then Ok (det_def / det_ori) else Throw.
Definition getM (ho hd : half) : outcome metric :=
  obind (ratio (hGcov ho) (hGcov hd)) (fun j => Ok (mkMetric (hGcon ho) (hGcov hd) (hGcon hd) j)).

Inductive impl := Analytical | Generalized | Spectral.

Section Point.
  (* close: gsAllCloseRelativeToMax(.,.,1e-12) of the G+Smo core; eps: threshold of math::lessthan; epsm: machine precision;
     eig: symmetric eigen-solver of Eigen *)
  Variables (close : mat -> mat -> bool) (eps epsm : R) (eig : mat -> vec * (nat -> vec)).

  (* _Sij, _Cijkl of the three implementations (cited in NonlinearModel / SpectralModel); the Ogden law exists only in
     the spectral implementation (gsMaterialMatrixNonlinear.h 1240-1400), the other combinations are not instantiated: 0 *)
  Definition S_i (imp : impl) (w : slaw) (p : par) (m : metric) (g : nat -> vec) : mat :=
    match imp, w with
    | Analytical, L l => S_inc l p m
    | Generalized, L l => S_inc_gen l p m
    | Spectral, _ => let e := eig (Bten (cmat m (1 / J0 m)) g) in stress_code_i epsm w p m g (fst e) (snd e)
    | _, OG _ => mzero
    end.
  Definition C_i (imp : impl) (w : slaw) (p : par) (m : metric) (g : nat -> vec) : ten4 :=
    match imp, w with
    | Analytical, L l => C_inc l p m
    | Generalized, L l => C_inc_gen l p m
    | Spectral, _ => let e := eig (Bten (cmat m (1 / J0 m)) g) in tangent_code_i epsm w p m g (fst e) (snd e)
    | _, OG _ => fun _ _ _ _ => 0
    end.
  Definition S_c (imp : impl) (w : slaw) (p : par) (m : metric) (g : nat -> vec) (c : R) : mat :=
    match imp, w with
    | Analytical, L l => S_comp l p m c
    | Generalized, L l => S_comp_gen l p m c
    | Spectral, _ => let e := eig (Bten (cmat m c) g) in stress_code_c epsm w p m c g (fst e) (snd e)
    | _, OG _ => mzero
    end.
  (* _Cijkl (condensed) and the component C3333 of _Cijkl3D read by the thickness iteration *)
  Definition C_c (imp : impl) (w : slaw) (p : par) (m : metric) (g : nat -> vec) (c : R) : ten4 :=
    match imp, w with
    | Analytical, L l => condense (C3D l p m c)
    | Generalized, L l => condense (C3D_gen l p m c)
    | Spectral, _ => let e := eig (Bten (cmat m c) g) in tangent_code_c epsm w p m c g (fst e) (snd e)
    | _, OG _ => fun _ _ _ _ => 0
    end.
  Definition C3333_c (imp : impl) (w : slaw) (p : par) (m : metric) (g : nat -> vec) (c : R) : R :=
    match imp, w with
    | Analytical, L l => C3D l p m c 2%nat 2%nat 2%nat 2%nat
    | Generalized, L l => C3D_gen l p m c 2%nat 2%nat 2%nat 2%nat
    | Spectral, _ => let e := eig (Bten (cmat m c) g) in
                     C3333_spec w p (fst (evalStretch epsm (cmat m c) g (fst e) (snd e))) (J_sq m c)
    | _, OG _ => 0
    end.

  (* gsMaterialMatrixNonlinear.hpp 894-907 / 926-937 (incompressible stress, one column) *)
  Definition stress_inc (imp : impl) (w : slaw) (p : par) (ho hd : half) : outcome vec :=
    obind (getM ho hd) (fun m => Ok (stress_out (close (hGcon ho) (hGcon hd)) (S_i imp w p m (hgcon ho)))).
  (* 1260-1273 / 1220-1233 *)
  Definition matrix_inc (imp : impl) (w : slaw) (p : par) (ho hd : half) : outcome mat :=
    obind (getM ho hd) (fun m => Ok (fun a b => matrix_out (C_i imp w p m (hgcon ho)) a b)).
  (* 1884-1932 / 1958-2006: the thickness component *)
  Definition c33_pt (imp : impl) (w : slaw) (p : par) (ho hd : half) : outcome R :=
    obind (getM ho hd) (fun m =>
      c33_of eps (fun c => S_c imp w p m (hgcon ho) c 2%nat 2%nat) (C3333_c imp w p m (hgcon ho)) (J0 m)).
  (* 795-816 / 838-866: the thickness component first, then the stress *)
  Definition stress_comp (imp : impl) (w : slaw) (p : par) (ho hd : half) : outcome vec :=
    obind (c33_pt imp w p ho hd) (fun c => obind (getM ho hd) (fun m =>
      Ok (stress_out (close (hGcon ho) (hGcon hd)) (S_c imp w p m (hgcon ho) c)))).
  (* 2083-2107 / 2032-2056 *)
  Definition matrix_comp (imp : impl) (w : slaw) (p : par) (ho hd : half) : outcome mat :=
    obind (c33_pt imp w p ho hd) (fun c => obind (getM ho hd) (fun m =>
      Ok (fun a b => matrix_out (C_c imp w p m (hgcon ho) c) a b))).
  (* dispatch on comp: 708-739, 743-774 (stress), 509-549, 304-341 (matrix) *)
  Definition stress_pt (comp : bool) := if comp then stress_comp else stress_inc.
  Definition matrix_pt (comp : bool) := if comp then matrix_comp else matrix_inc.

  (* one in-plane point: the two configurations as functions of the height, thickness, material parameters *)
  Record pdata := mkP { po : R -> half; pd : R -> half; pT : R; pp : par }.
  Definition shell_pt (go gd : geo) (t : R) (p : par) : pdata := mkP (half3 go) (half3 gd) t p.
  Definition planar_pt (go gd : geo2) (t : R) (p : par) : pdata := mkP (half2 go) (half2 gd) t p.

  (* one column of eval3D_stress / eval3D_matrix at (dimensionless) height z *)
  Definition eval_stress (comp : bool) (imp : impl) (w : slaw) (q : pdata) (z : R) : outcome vec :=
    stress_pt comp imp w (pp q) (po q (z * pT q)) (pd q (z * pT q)).
  Definition eval_matrix (comp : bool) (imp : impl) (w : slaw) (q : pdata) (z : R) : outcome mat :=
    matrix_pt comp imp w (pp q) (po q (z * pT q)) (pd q (z * pT q)).
  (* eval3D_vector_C / eval3D_stress_C / eval3D_matrix_C: gsMaterialMatrixNonlinear.hpp 304-341, 555-558, 743-776, 826-869, 911-940,
     1203-1238, 2012-2060 *)
  Definition eval_stress_C (comp : bool) (imp : impl) (w : slaw) (q : pdata) (C : vec) (z : R) : outcome vec :=
    stress_pt comp imp w (pp q) (po q (z * pT q)) (halfC C).
  Definition eval_matrix_C (comp : bool) (imp : impl) (w : slaw) (q : pdata) (C : vec) (z : R) : outcome mat :=
    matrix_pt comp imp w (pp q) (po q (z * pT q)) (halfC C).

  (* ---------- derivative of the tangent with respect to the deformation tensor ---------- *)
  (* gsMaterialMatrixNonlinear.hpp 53-64: Cfun::eval_into halves the third component of its argument.
     Column-major flattening of the 3x3 result: entry c is (c mod 3, c / 3) *)
  Definition halve (C : vec) : vec := fun i => match i with 0%nat | 1%nat => C i | _ => C i * / 2 end.
  Definition Cfun (comp : bool) (imp : impl) (w : slaw) (q : pdata) (z : R) (C : vec) : outcome (nat -> R) :=
    obind (eval_matrix_C comp imp w q (halve C) z) (fun M => Ok (fun c => M (Nat.modulo c 3) (Nat.div c 3))).
  (* 386-390: the argument at which the differences are taken *)
  Definition Cvoight (hd : half) : vec := fun i =>
    match i with 0%nat => hGcov hd 0%nat 0%nat | 1%nat => hGcov hd 1%nat 1%nat | _ => hGcov hd 0%nat 1%nat end.
End Point.

(* gsFunction::deriv_into of the G+Smo core (central differences): deriv f x is the list of partial derivatives, entry
   r + 3*c is the derivative of component c in direction r.  It is an argument with the contract `exact` of PtSpec. *)
Definition deriv_op := ((vec -> outcome (nat -> R)) -> vec -> outcome (nat -> R)).

(* gsMaterialMatrixNonlinear.hpp 372-436 (dCijkl): incompressible neo-Hookean in closed form, everything else by differences *)
Definition closed_form (comp : bool) (w : slaw) : bool := match comp, w with false, L NH => true | _, _ => false end.
Definition dC_pt (deriv : deriv_op) (close : mat -> mat -> bool) (eps epsm : R) (eig : mat -> vec * (nat -> vec))
  (comp : bool) (imp : impl) (w : slaw) (q : pdata) (z : R) : outcome (nat -> R) :=
  obind (getM (po q (z * pT q)) (pd q (z * pT q))) (fun m =>
    if closed_form comp w then Ok (dmatrix_out (pp q) m)
    else deriv (Cfun eps epsm eig comp imp w q z) (Cvoight (pd q (z * pT q)))).

(* eval3D_dmatrix, gsMaterialMatrixNonlinear.hpp 343-370, for points P 0 .. P (n-1) and heights z j k, j < m.  The stored point
   data are those of the last _computePoints: the call of deriv_into evaluates the material at the single point u.col(k)
   (eval3D_matrix_C, 318-341), which replaces the stored data of the batch by data with one column.
   stored: the data columns now held; reading a column that is not held is undefined. *)
Definition nth_pt (stored : list pdata) (k : nat) : outcome pdata :=
  match nth_error stored k with Some q => Ok q | None => UB end.
Section Batch.
  Variables (fd : bool) (D : pdata -> R -> outcome (nat -> R)) (P : nat -> pdata) (z : nat -> nat -> R) (n m : nat).
  Fixpoint dcol (k : nat) (js : list nat) (st : list pdata) (s : store (nat -> R)) : outcome (list pdata * store (nat -> R)) :=
    match js with
    | [] => Ok (st, s)
    | j :: js' =>
        obind (nth_pt st k) (fun q => obind (D q (z j k)) (fun v => obind (write (n * m) (colIdx n k j) v s) (fun s' =>
          dcol k js' (if fd then [P k] else st) s')))
    end.
  Fixpoint drow (ks : list nat) (st : list pdata) (s : store (nat -> R)) : outcome (store (nat -> R)) :=
    match ks with
    | [] => Ok s
    | k :: ks' => obind (nth_pt st k) (fun _ => obind (dcol k (seq 0 m) st s) (fun r => drow ks' (fst r) (snd r)))
    end.
  Definition dmatrix_batch : outcome (store (nat -> R)) := drow (seq 0 n) (map P (seq 0 n)) empty.
End Batch.

(* gsMaterialMatrixTFT.hpp 442-445: the 27 entries, doubled, reshaped to 9x3 (column major) and read by _compute_C as the
   derivative of entry (a,b) in direction d (887-945: entry (a + 3 b, d)) *)
Definition tft_dC (D : nat -> R) (a b d : nat) : R := D (a + 3 * b + 9 * d)%nat * 2.

(* ---------- linear material with a prescribed deformation tensor ---------- *)
(* gsMaterialMatrixLinear.hpp 594-626 reading the members of the two configurations *)
Definition E_members (k : strain_kind) (ho hd : half) : mat := fun i j =>
  match k with
  | KMembrane => / 2 * (hAcov hd i j - hAcov ho i j)
  | KBending => hBcov ho i j - hBcov hd i j
  | KGeneric => / 2 * (hGcov hd i j - hGcov ho i j)
  end.
(* 318-359: eval3D_vector_C.  348-350 copy the prescribed metric to the mid-surface members; debug builds reject z <> 0 (346) *)
Definition halfC_lin (C : vec) : half :=
  let h := halfC C in mkHalf (hGcov h) (hGcon h) mzero (hGcov h) (hGcon h) (hacov h) (hacon h) (hgcov h) (hgcon h).
Definition lin_vector_C (debug : bool) (E nu : R) (k : strain_kind) (q : pdata) (C : vec) (z : R) : outcome vec :=
  if (debug && negb (if Req_EM_T z 0 then true else false))%bool then Throw
  else let ho := po q (z * pT q) in Ok (Svoigt E nu (hAcon ho) (E_members k ho (halfC_lin C))).
(* 472-487: eval3D_stress, one column *)
Definition lin_vector (E nu : R) (k : strain_kind) (q : pdata) (z : R) : outcome vec :=
  let ho := po q (z * pT q) in let hd := pd q (z * pT q) in
  obind (getM ho hd) (fun _ => Ok (Svoigt E nu (hAcon ho) (E_members k ho hd))).
(* 217-250: eval3D_matrix_C; 177-214: eval3D_matrix, one column *)
Definition lin_matrix_C (E nu : R) (q : pdata) (C : vec) (z : R) : outcome mat := Ok (voigt (Cijkl E nu (hAcon (po q (z * pT q))))).
Definition lin_matrix (E nu : R) (q : pdata) (z : R) : outcome mat :=
  obind (getM (po q (z * pT q)) (pd q (z * pT q))) (fun _ => Ok (voigt (Cijkl E nu (hAcon (po q (z * pT q)))))).
