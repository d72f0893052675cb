(* Model of the principal stretches and volume change of compressible hyperelastic materials at several points and heights
   (src/gsMaterialMatrixNonlinear.hpp): the through-thickness component is computed for all columns first and read back. *)
From Coq Require Import Reals List.
From Verif Require Import Tensor MetricModel NonlinearModel NonlinearSpec Newton33Model PrincipalModel BatchModel SizeModel.
Import ListNotations.
Open Scope R_scope.

(* the loops of BatchModel with a body that may throw or be undefined *)
Fixpoint inner_o {A} (n alloc k : nat) (F : nat -> nat -> outcome A) (js : list nat) (s : store A) : outcome (store A) :=
  match js with
  | [] => Ok s
  | j :: js' => obind (F k j) (fun v => obind (write alloc (colIdx n k j) v s) (inner_o n alloc k F js'))
  end.
Fixpoint outer_o {A} (n m alloc : nat) (F : nat -> nat -> outcome A) (ks : list nat) (s : store A) : outcome (store A) :=
  match ks with
  | [] => Ok s
  | k :: ks' => obind (inner_o n alloc k F (seq 0 m) s) (outer_o n m alloc F ks')
  end.
Definition batch_o {A} (n m alloc : nat) (F : nat -> nat -> outcome A) : outcome (store A) := outer_o n m alloc F (seq 0 n) empty.

(* data of one in-plane point: undeformed and deformed surface, m_Tmat(0,k), m_parmat column *)
Record point := mkPoint { undef : geo; defd : geo; thick : R; pars : par }.

(* z(j,k) of a matrix with zc columns: reading a missing column is undefined (release build) *)
Definition zread (zc : nat) (z : nat -> nat -> R) (j k : nat) : outcome R := if Nat.ltb k zc then Ok (z j k) else UB.

(* _getMetric(k, h): gsMaterialMatrixBaseDim.hpp 1012-1039 (J0_sq of MetricModel), the members read by the laws *)
Definition getMetric (p : point) (h : R) : outcome metric :=
  obind (J0_sq (undef p) (defd p) h) (fun j =>
    Ok (mkMetric (inv3 (Gcov (undef p) h)) (Gcov (defd p) h) (inv3 (Gcov (defd p) h)) j)).

Section Material.
  (* eps: threshold of math::lessthan; epsm: machine precision of _evalStretch; eig: the symmetric eigen-solver of Eigen *)
  Variables (eps epsm : R) (w : law) (eig : mat -> vec * (nat -> vec)) (P : nat -> point).

  (* gsMaterialMatrixNonlinear.hpp 1875-1935: body of _eval3D_Compressible_C33 *)
  Definition c33_at (zc : nat) (z : nat -> nat -> R) (k j : nat) : outcome R :=
    obind (zread zc z j k) (fun h => obind (getMetric (P k) (h * thick (P k))) (c33_law eps w (pars (P k)))).
  (* 1865-1937 *)
  Definition C33s (n m zc : nat) (z : nat -> nat -> R) : outcome (store R) := batch_o n m (n * m) (c33_at zc z).
  (* C33s(0,c) *)
  Definition read (s : store R) (c : nat) : outcome R := match s c with Some x => Ok x | None => UB end.

  (* one call of _evalStretch with c = diag-block(Gcov_def, C33) (597-602, 245-250, 293-298) *)
  Definition stretches_of (p : point) (h : R) (m : metric) (c33 : R) : vec * (nat -> vec) :=
    let C := with33 (Gdef m) c33 in let g := gcon (undef p) h in let e := eig (Bten C g) in
    evalStretch epsm C g (fst e) (snd e).

  (* 574-606: eval3D_pstretch_impl for compressible materials; line 594 reads column k *)
  Definition pstretch (n m zc : nat) (z : nat -> nat -> R) : outcome (store vec) :=
    obind (C33s n m zc z) (fun s => batch_o n m (n * m) (fun k j =>
      obind (zread zc z j k) (fun h0 => let h := h0 * thick (P k) in
      obind (getMetric (P k) h) (fun mt => obind (read s k) (fun c => Ok (fst (stretches_of (P k) h mt c))))))).

  (* 976-1000: _eval3D_Compressible_detF; line 996 reads column colIdx *)
  Definition detF (n m zc : nat) (z : nat -> nat -> R) : outcome (store R) :=
    obind (C33s n m zc z) (fun s => batch_o n m (n * m) (fun k j =>
      obind (zread zc z j k) (fun h0 =>
      obind (getMetric (P k) (h0 * thick (P k))) (fun mt => obind (read s (colIdx n k j)) (fun c => Ok (sqrt (J0 mt * c))))))).

  (* 223-253, 271-301: pstretch_into / pstretchDir_into of compressible materials, heights given by the 1 x 1 matrix 0.
     Incompressible materials call the base class (215-221, 263-269), which is GISMO_NO_IMPLEMENTATION: not modelled *)
  Definition stretch_into {A} (sel : vec * (nat -> vec) -> A) (n : nat) : outcome (store A) :=
    obind (C33s n 1 1 (fun _ _ => 0)) (fun s => batch_o n 1 n (fun k _ =>
      obind (getMetric (P k) 0) (fun mt => obind (read s k) (fun c => Ok (sel (stretches_of (P k) 0 mt c)))))).
  Definition pstretch_into (n : nat) := stretch_into fst n.
  Definition pstretchDir_into (n : nat) := stretch_into snd n.
End Material.
