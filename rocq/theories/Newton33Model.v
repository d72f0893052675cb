(* Model of the plane-stress iteration for the through-thickness component c33 of the right Cauchy-Green tensor. *)
From Coq Require Import Reals.
From Verif Require Import Tensor NonlinearModel.
Open Scope R_scope.

Definition itmax : nat := 100.                  (* gsMaterialMatrixNonlinear.hpp 1892, 1966 *)
Definition tol : R := / 10000000000.            (* 1893, 1967: 1e-10 *)

(* math::lessthan(a,b) of the G+Smo core (not part of the repository): a is smaller than b by more than a rounding
   threshold eps >= 0; eps is an argument, all theorems hold for every eps >= 0 *)
Definition lessthan (eps a b : R) : bool := if Rlt_dec eps (b - a) then true else false.

(* gsMaterialMatrixNonlinear.hpp 1911, 1924: dc33 = -2*S33/C3333.  S33 and C3333 are functions of c33 for a fixed in-plane
   state.  Values where c33 or C3333 vanish (inf/nan in the code) are outside the model; theorems exclude them. *)
Definition correction (S33 C3333 : R -> R) (c : R) : R := - 2 * S33 c / C3333 c.

(* gsMaterialMatrixNonlinear.hpp 1912-1931: the loop, n iterations left; GISMO_ENSURE throws when the last one does not accept *)
Fixpoint loop33 (eps : R) (S33 C3333 : R -> R) (n : nat) (c dc : R) : outcome R :=
  match n with
  | 0%nat => Throw
  | S n' => let c' := c + dc in let dc' := correction S33 C3333 c' in
            if lessthan eps (Rabs dc') tol then Ok c' else loop33 eps S33 C3333 n' c' dc'
  end.
(* gsMaterialMatrixNonlinear.hpp 1896-1932 / 1970-2006: one point *)
Definition c33_of (eps : R) (S33 C3333 : R -> R) (J0sq : R) : outcome R :=
  let c0 := / J0sq in loop33 eps S33 C3333 itmax c0 (correction S33 C3333 c0).
(* ... with the stress and tensor of a law *)
Definition c33_law (eps : R) (w : law) (p : par) (m : metric) : outcome R :=
  c33_of eps (fun c => S_comp w p m c 2%nat 2%nat) (fun c => C3D w p m c 2%nat 2%nat 2%nat 2%nat) (J0 m).
