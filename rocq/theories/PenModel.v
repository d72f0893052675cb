(* Model of the penalty factors of the weak boundary and interface conditions (src/gsThinShellAssembler.hpp). *)
From Coq Require Import Reals.
From Verif Require Import Tensor MetricModel LinearModel KinModel FuncModel.
Open Scope R_scope.

(* mmAcart = con2cartI * reshape(mmA,3,3) * cart2cov with con2cartI = cartcon(ori).inv(), cart2cov = cartcov(ori):
   gsThinShellAssembler.hpp 588-592, 631-634, 666-669, 726-730, 777-781, 821-824, 852-855, 895-899, 983-986, 1039-1043, 1173-1177,
   1244-1247, 1282-1285; cartcon_expr::inv(), cartconinv_expr: gsThinShellUtils.h 1959-2000 (Eigen inverse of the 3x3 matrix) *)
Definition mmcart (c : jet) (A : mat) : mat := mmul3 (mmul3 (inv3 (cartcon c)) A) (cartcov c).
(* reshape(mmAcart,9,1).max(): the largest entry *)
Definition max9 (M : mat) : R :=
  let row i := Rmax (M i 0%nat) (Rmax (M i 1%nat) (M i 2%nat)) in Rmax (row 0%nat) (Rmax (row 1%nat) (row 2%nat)).
(* alpha_d = m_alpha_d * max / el.area(ori), alpha_r likewise with the D matrix: 595-596, 637, 672, 733-734, 784-785, 827, 858;
   interfaces divide by the mean h of the two element areas: 902-904, 989-990, 1046-1048, 1180-1182, 1250-1251, 1288-1289 *)
Definition penalty (alpha : R) (c : jet) (A : mat) (area : R) : R := alpha * max9 (mmcart c A) / area.
Definition penalty_ifc (alpha : R) (c : jet) (A : mat) (area_l area_r : R) : R := penalty alpha c A ((area_l + area_r) / 2).
