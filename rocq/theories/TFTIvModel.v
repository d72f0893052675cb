(* Model of gsMaterialMatrixTFT::_theta_interval (src/gsMaterialMatrixTFT.hpp 620-776): the interval in which eval_theta looks for the
   wrinkling angle first.  Voigt vectors as in TFTModel: stresses (N11,N22,N12), strains (E11,E22,2*E12). *)
From Coq Require Import Reals List Bool Arith.
From Verif Require Import Tensor BatchModel TFTModel.
Import ListNotations.
Open Scope R_scope.

(* std::atan2(s,c) for s >= 0 (or +0): the angle in [0,pi] of the vector (c,s).  (0,0) gives 0; IEEE gives pi for atan2(+0,-0), which
   is reached only by vanishing strains or stresses. *)
Definition atan2p (s c : R) : R :=
  if Req_EM_T (c * c + s * s) 0 then 0 else acos (c / sqrt (c * c + s * s)).
(* std::atan2; [neg0] is the sign bit of a zero first argument *)
Definition atan2 (neg0 : bool) (s c : R) : R :=
  if Rlt_dec s 0 then - atan2p (- s) c
  else if Req_EM_T s 0 then (if neg0 then - atan2p s c else atan2p s c)
  else atan2p s c.
(* real part of std::sqrt(std::complex<T>(x)) for real x: +0 for x < 0 *)
Definition csqrt_re (x : R) : R := if Rlt_dec x 0 then 0 else sqrt x.
(* mod 951-954 *)
Definition fmod (x y : R) : R := x - IZR (Int_part (x / y)) * y.

Section Interval.
  (* the strain, the stress, the objective, the signs of the zeros sin_E0 and sin_N0 *)
  Variables (E N : vec) (f : R -> R) (zE zN : bool).

  (* 631-634 *)
  Definition iE12 : R := / 2 * E 2%nat.
  Definition iRE0 : R := sqrt (((E 0%nat - E 1%nat) / 2) ^ 2 + iE12 * iE12).
  (* 635 *)
  Definition iRE : R := if Req_EM_T iRE0 0 then 1 else iRE0.
  (* 636-637, 646 *)
  Definition th0E : R := atan2 zE (iE12 / iRE) ((E 1%nat - E 0%nat) / (2 * iRE)).
  (* 638, 642-644, 648: sin_E2 is +0 when the root is imaginary *)
  Definition iEs : R := csqrt_re (iE12 * iE12 - E 0%nat * E 1%nat) / iRE.
  Definition iEc : R := - (E 0%nat + E 1%nat) / (2 * iRE).
  Definition th2E : R := atan2 false iEs iEc.
  (* 639-641, 647: the negated root, -0 when it is imaginary *)
  Definition th1E : R := atan2 true (- iEs) iEc.

  (* 651-655 *)
  Definition iRN0 : R := sqrt (((N 0%nat - N 1%nat) / 2) ^ 2 + N 2%nat * N 2%nat).
  Definition iRN : R := if Req_EM_T iRN0 0 then 1 else iRN0.
  (* 656-657, 667: the cosine is divided by R_N, not by 2 R_N *)
  Definition th0N : R := atan2 zN (- N 2%nat / iRN) ((N 0%nat - N 1%nat) / iRN).
  (* 658-665, 668-669 *)
  Definition iNs : R := csqrt_re (N 2%nat * N 2%nat - N 0%nat * N 1%nat) / iRN.
  Definition iNc : R := - (N 0%nat + N 1%nat) / (2 * iRN).
  Definition th1N : R := atan2 false iNs iNc.
  Definition th2N : R := atan2 true (- iNs) iNc.

  (* 671-672 *)
  Definition ith1 : R := fmod (th1N - th0N + th0E + PI) (2 * PI).
  Definition ith2 : R := fmod (th2N - th0N + th0E + PI) (2 * PI).
  (* 710-711 *)
  Definition qEmin : R := th1E - th0E.
  Definition qEmax : R := th2E - th0E.
  (* 721-724, 734-737, 744-747: the common part of (Q_E_min,Q_E_max) and (smin,smax), halved *)
  Definition meet (smin smax : R) : R * R := (Rmax qEmin smin / 2, Rmin qEmax smax / 2).
  (* 715-771: the candidates *)
  Definition arcs : list (R * R) :=
    if Rlt_dec ith1 ith2 then [meet (ith1 - PI - th0E) (ith2 - PI - th0E)]
    else if Rlt_dec ith2 ith1 then [meet (ith1 - PI - th0E) (PI - th0E); meet (- PI - th0E) (ith2 - PI - th0E)]
    else [].
  (* 715-775: the second of two candidates is returned when the objective does not change sign over the first (738) *)
  Definition theta_interval : R * R :=
    match arcs with
    | [] => (0, 0)
    | [i] => i
    | i :: j :: _ => if Rlt_dec 0 (f (fst i) * f (snd i)) then j else i
    end.
End Interval.

(* eval_theta 455-578 for one column with the interval it computes (473); theta is 0 on entry (462) *)
Definition find_theta (eps : R) (itmax : nat) (newton : R -> R) (zE zN : bool) (C : mat) (N E : vec) : outcome R :=
  let i := theta_interval E N (objf C N) zE zN in
  eval_theta (objf C N) (fun x => check_full x N E) eps itmax newton (fst i) (snd i) 0.
