(* Specification of the error estimators: residual functional, bilinear forms. *)
From Coq Require Import Reals List.
From Verif Require Import Tensor KinModel KinSpec KinAsm IndicatorModel EstModel.
Import ListNotations.
Open Scope R_scope.

(* virtual work of the residual of a bending shell in the direction of a field v: v (point) gives the field at the point.
   Linear in the external loads and the stress resultants of the deformed configuration. *)
Definition residual (P : eproblem) (v : epoint -> jet) (vb : bpoint -> jet) (vl : pload -> R) : R :=
  psum (concat (pels P)) (fun p => ew p * (dot3 (j0 (v p)) (eF p) - (dot3 (eN p) (Em_der (edef p) (v p)) + dot3 (eM p) (Ef_der (edef p) (v p)))))
  + psum (pbnd P) (fun b => bw b * dot3 (j0 (vb b)) (bg b)) + psum (ploads P) vl.
(* energy and mass forms of a vibrating shell *)
Definition aform (pts : list gpt) (u v : gpt -> jet) : R := psum pts (fun p => mw p * Klin (mori p) (mA p) (mB p) (mC p) (mD p) (u p) (v p)).
Definition bform (pts : list gpt) (u v : gpt -> jet) : R := psum pts (fun p => mw p * (mrho p * dot3 (j0 (u p)) (j0 (v p)))).
(* no second derivatives of the geometry: planes and bilinear-free parametrisations *)
Definition straight (c : jet) : Prop := forall a, jsec c a = vzero.
(* a discrete space given by its scalar basis functions at the points; the residual vector of the space *)
Record fespace := mkfe { fn : nat; fp : epoint -> nat -> sjet; fb : bpoint -> nat -> sjet; fl : pload -> nat -> sjet }.
Definition dofs (n : nat) (x y : coefs) : R := rsum n (fun i => sum3 (fun d => x i d * y i d)).
Definition matvec (n : nat) (K : nat -> nat -> nat -> nat -> R) (x : coefs) : coefs := fun i d => rsum n (fun j => sum3 (fun e => K i d j e * x j e)).
Definition matsym (n : nat) (K : nat -> nat -> nat -> nat -> R) : Prop :=
  forall i d j e, (i < n)%nat -> (d < 3)%nat -> (j < n)%nat -> (e < 3)%nat -> K i d j e = K j e i d.
Definition same (n : nat) (x y : coefs) : Prop := forall i d, (i < n)%nat -> (d < 3)%nat -> x i d = y i d.
Definition resvec (P : eproblem) (lf : pload -> vec) (V : fespace) : coefs := fun i d =>
  residual P (fun p => bvar d (fp V p i)) (fun b => bvar d (fb V b i)) (fun l => dot3 (j0 (bvar d (fl V l i))) (lf l)).
(* external force vector of the linear problem *)
Definition loadvec (P : eproblem) (lf : pload -> vec) (V : fespace) : coefs := fun i d =>
  psum (concat (pels P)) (fun p => ew p * dot3 (j0 (bvar d (fp V p i))) (eF p))
  + psum (pbnd P) (fun b => bw b * dot3 (j0 (bvar d (fb V b i))) (bg b)) + psum (ploads P) (fun l => dot3 (j0 (bvar d (fl V l i))) (lf l)).
(* the dual solutions of the problem are the fields with coefficients xL, xH of the spaces *)
Definition has_duals (P : eproblem) (lf : pload -> vec) (VL VH : fespace) (xL xH : coefs) : Prop :=
  (forall p, In p (concat (pels P)) -> ezL p = fieldjet (fn VL) (fp VL p) xL /\ ezH p = fieldjet (fn VH) (fp VH p) xH) /\
  (forall b, In b (pbnd P) -> bzL b = fieldjet (fn VL) (fb VL b) xL /\ bzH b = fieldjet (fn VH) (fb VH b) xH) /\
  (forall l, In l (ploads P) -> lval l = dot3 (j0 (fieldjet (fn VH) (fl VH l) xH)) (lf l) - dot3 (j0 (fieldjet (fn VL) (fl VL l) xL)) (lf l)).
(* the coarse space is contained in the fine one, E maps coefficients *)
Definition nested (P : eproblem) (lf : pload -> vec) (VL VH : fespace) (E : coefs -> coefs) : Prop := forall x,
  (forall p, In p (concat (pels P)) -> fieldjet (fn VL) (fp VL p) x = fieldjet (fn VH) (fp VH p) (E x)) /\
  (forall b, In b (pbnd P) -> fieldjet (fn VL) (fb VL b) x = fieldjet (fn VH) (fb VH b) (E x)) /\
  (forall l, In l (ploads P) -> fieldjet (fn VL) (fl VL l) x = fieldjet (fn VH) (fl VH l) (E x)).
(* virtual work vector of a further force density (a pressure or foundation reaction) *)
Definition forcevec (P : eproblem) (q : epoint -> vec) (V : fespace) : coefs := fun i d =>
  psum (concat (pels P)) (fun p => ew p * dot3 (j0 (bvar d (fp V p i))) (q p)).
Definition vanishes (n : nat) (x : coefs) : Prop := forall i d, (i < n)%nat -> (d < 3)%nat -> x i d = 0.
(* linear stiffness and its change between the undeformed and the deformed state (buckling) *)
Definition kL (p : bkpt) (v u : jet) : R := Klin (kori p) (kA p) (kB p) (kC p) (kD p) v u.
Definition kG (p : bkpt) (v u : jet) : R := Kstiff (kdef p) (kA' p) (kB' p) (kC' p) (kD' p) (kN p) (kM p) v u - kL p v u.
Definition lform (pts : list bkpt) (v u : bkpt -> jet) : R := psum pts (fun p => kw p * kL p (v p) (u p)).
Definition gform (pts : list bkpt) (v u : bkpt -> jet) : R := psum pts (fun p => kw p * kG p (v p) (u p)).
(* no bending moment at the point, or the second derivatives of the fields are those at the first point of the element *)
Definition hess_ok (els : list (list bkpt)) (fs : list (bkpt -> jet)) : Prop := forall el p, In el els -> In p el ->
  (forall a, (a < 3)%nat -> kM p a = 0) \/ (forall f a, In f fs -> jsec (f p) a = jsec (f (hd p el)) a).
Definition straight_all (els : list (list bkpt)) : Prop := forall p, In p (concat els) -> straight (kori p) /\ straight (kdef p).
