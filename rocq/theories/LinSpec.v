(* Specification of the linear problem: quadratic forms of dof vectors, solutions with prescribed values, potential energy. *)
From Coq Require Import Reals List.
From Verif Require Import Tensor KinModel KinSpec KinAsm.
Open Scope R_scope.

(* a matrix indexed by pairs of degrees of freedom (i,d), i < n, d < 3 *)
Definition dmat := nat -> nat -> nat -> nat -> R.
Definition dapply (n : nat) (K : dmat) (x : coefs) : coefs := fun i d => rsum n (fun j => sum3 (fun e => K i d j e * x j e)).
Definition ddot (n : nat) (x y : coefs) : R := rsum n (fun i => sum3 (fun d => x i d * y i d)).
Definition dquad (n : nat) (K : dmat) (x : coefs) : R := ddot n x (dapply n K x).
Definition cadd (x y : coefs) : coefs := fun i d => x i d + y i d.
Definition csub (x y : coefs) : coefs := fun i d => x i d - y i d.

(* degrees of freedom that are not eliminated *)
Definition frees := nat -> nat -> bool.
(* x takes the prescribed values g and satisfies the equations of the free degrees of freedom *)
Definition prescribed (n : nat) (fr : frees) (g x : coefs) : Prop := forall i d, (i < n)%nat -> (d < 3)%nat -> fr i d = false -> x i d = g i d.
Definition solves (n : nat) (fr : frees) (K : dmat) (f g x : coefs) : Prop :=
  prescribed n fr g x /\ forall i d, (i < n)%nat -> (d < 3)%nat -> fr i d = true -> dapply n K x i d = f i d.
(* potential energy of the loads f *)
Definition potential (n : nat) (K : dmat) (f x : coefs) : R := / 2 * dquad n K x - ddot n f x.

(* the stiffness (A B; C D) of a section is positive on every strain pair *)
Definition section_form (A B C D : mat) (e k : vec) : R :=
  sum3 (fun a => sum3 (fun b => e a * A a b * e b)) + sum3 (fun a => sum3 (fun b => k a * B a b * e b))
  + sum3 (fun a => sum3 (fun b => e a * C a b * k b)) + sum3 (fun a => sum3 (fun b => k a * D a b * k b)).
Definition section_posdef (A B C D : mat) : Prop := forall e k, (exists r, (r < 3)%nat /\ (e r <> 0 \/ k r <> 0)) -> 0 < section_form A B C D e k.
(* linearised strains of the field x vanish at the point *)
Definition strain_free (n : nat) (q : qpoint) (x : coefs) : Prop :=
  forall a, (a < 3)%nat -> Em_der (qori q) (fieldjet n (qbas q) x) a = 0 /\ Ef_der (qori q) (fieldjet n (qbas q) x) a = 0.
(* points with positive weight, non-degenerate geometry, and a symmetric, positive definite section stiffness *)
Definition sound (pts : list qpoint) : Prop := forall q, In q pts -> 0 < qw q /\ regular (qori q) /\
  section_posdef (qA q vzero vzero) (qB q vzero vzero) (qC q vzero vzero) (qD q vzero vzero) /\
  symm3 (qA q vzero vzero) /\ symm3 (qD q vzero vzero) /\ transp3 (qB q vzero vzero) (qC q vzero vzero).
