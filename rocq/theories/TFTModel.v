(* Model of gsMaterialMatrixTFT (src/gsMaterialMatrixTFT.hpp, .h): tension-field modification of a material.
   Voigt vectors: stresses are (S11,S22,S12), strains are (E11,E22,2*E12) (gsMaterialMatrixBaseDim.hpp 285-287). *)
From Coq Require Import Reals List Bool Arith.
From Verif Require Import Tensor BatchModel.
Import ListNotations.
Open Scope R_scope.

(* gsMaterialMatrixTFT.hpp 583-588 (_compute_gamma), 841-847 (_compute_C), 968-976 (objective::eval_into): n = (cos,sin), m = (-sin,cos) *)
Definition v3 (a b c : R) : vec := fun i => match i with 0%nat => a | 1%nat => b | _ => c end.
Definition n1v (th : R) : vec := v3 (cos th * cos th) (sin th * sin th) (2 * cos th * sin th).
Definition n2v (th : R) : vec := v3 (- sin th * cos th) (cos th * sin th) (- sin th * sin th + cos th * cos th).
Definition n4v (th : R) : vec := v3 (- sin th * - sin th) (cos th * cos th) (2 * - sin th * cos th).
(* 1038 *)
Definition n3v (th : R) : vec :=
  v3 (- sin th * - sin th - cos th * cos th) (cos th * cos th - sin th * sin th) (2 * (- sin th * cos th - cos th * sin th)).

(* u^T M v *)
Definition quad (u : vec) (M : mat) (v : vec) : R := dot3 u (mvec3 M v).

(* gamma: 591 (_compute_gamma), 812, 829, 850, 912, 978 *)
Definition gamma (th : R) (C : mat) (S : vec) : R := - dot3 (n1v th) S / quad (n1v th) C (n1v th).
(* objective::eval_into 963-985 *)
Definition objf (C : mat) (S : vec) (th : R) : R :=
  dot3 (n2v th) S + gamma th C S * quad (n2v th) C (n1v th).
(* tmp and dgammadT: 857-859, 919-921, 1042-1043 *)
Definition tmpc (th : R) (C : mat) : R := quad (n2v th) C (n1v th) / quad (n1v th) C (n1v th).
Definition dgammadT (th : R) (C : mat) (S : vec) : R := - 2 * gamma th C S * tmpc th C.
(* objective::deriv_into2 1022-1053 *)
Definition objf_deriv (C : mat) (S : vec) (th : R) : R :=
  dot3 (n3v th) S + dgammadT th C S * quad (n2v th) C (n1v th)
  + gamma th C S * quad (n3v th) C (n1v th) + 2 * gamma th C S * quad (n2v th) C (n2v th).
(* dfdT: 870-871, 932-933 *)
Definition dfdT (th : R) (C : mat) (S : vec) : R :=
  dot3 (n4v th) S + dgammadT th C S * quad (n2v th) C (n1v th)
  + gamma th C S * (quad (n4v th) C (n1v th) + 2 * quad (n2v th) C (n2v th)).

(* _compute_E 803-817 *)
Definition compute_E (th : R) (C : mat) (S E : vec) : vec := fun i => E i + gamma th C S * n1v th i.
(* _compute_S 820-834 *)
Definition compute_S (th : R) (C : mat) (S : vec) : vec := fun i => S i + mvec3 C (fun k => gamma th C S * n1v th k) i.

(* row vector times matrix: (u^T M)(j) *)
Definition rowmul (u : vec) (M : mat) : vec := fun j => sum3 (fun i => u i * M i j).

(* _compute_C, linear inner material, 837-884; the matrix passed is 3x3 *)
Definition dgammadE_lin (th : R) (C : mat) : vec := fun j => - rowmul (n1v th) C j / quad (n1v th) C (n1v th).
Definition dfdE_lin (th : R) (C : mat) : vec := fun j =>
  rowmul (n2v th) C j - dgammadE_lin th C j * quad (n2v th) C (n1v th).
Definition dTdE_lin (th : R) (C : mat) (S : vec) : vec := fun j => - dfdE_lin th C j / dfdT th C S.
Definition dn1_lin (th : R) (C : mat) (S : vec) : mat := fun i j =>
  n1v th i * dgammadE_lin th C j + dgammadT th C S * n1v th i * dTdE_lin th C S j
  + 2 * gamma th C S * n2v th i * dTdE_lin th C S j.
Definition compute_C_lin (th : R) (C : mat) (S : vec) : mat := fun i j => C i j + mmul3 C (dn1_lin th C S) i j.

(* _compute_C, general inner material, 887-945; dC i j d is entry (i,j) of column d of the 9x3 matrix of derivatives *)
Definition ten3 := nat -> nat -> nat -> R.
Definition dCN1 (th : R) (dC : ten3) : mat := fun i d => sum3 (fun j => dC i j d * n1v th j).
Definition dgammadE_gen (th : R) (C : mat) (S : vec) (dC : ten3) : vec := fun j =>
  - (rowmul (n1v th) C j + gamma th C S * rowmul (n1v th) (dCN1 th dC) j) / quad (n1v th) C (n1v th).
Definition dfdE_gen (th : R) (C : mat) (S : vec) (dC : ten3) : vec := fun j =>
  rowmul (n2v th) C j + dgammadE_gen th C S dC j * quad (n2v th) C (n1v th)
  + gamma th C S * rowmul (n2v th) (dCN1 th dC) j.
Definition dTdE_gen (th : R) (C : mat) (S : vec) (dC : ten3) : vec := fun j => - dfdE_gen th C S dC j / dfdT th C S.
Definition dn1_gen (th : R) (C : mat) (S : vec) (dC : ten3) : mat := fun i j =>
  n1v th i * dgammadE_gen th C S dC j + dgammadT th C S * n1v th i * dTdE_gen th C S dC j
  + 2 * gamma th C S * n2v th i * dTdE_gen th C S dC j.
Definition compute_C_gen (th : R) (C : mat) (S : vec) (dC : ten3) : mat := fun i j =>
  C i j + mmul3 (mtr (dn1_gen th C S dC)) C i j + gamma th C S * dCN1 th dC i j.

(* _check_theta_full 595-608 *)
Definition check_full (th : R) (N E : vec) : bool :=
  (if Rlt_dec (dot3 (n1v th) N) 0 then true else false) && (if Rlt_dec 0 (dot3 (n4v th) E) then true else false).

(* ------------------------------------------------------------------ *)
(* Root finders, class objective (1055-1245); [f] is eval.  *)

(* findRootBisection 1069-1090: the loop body; c is computed once *)
Fixpoint bisect_loop (f : R -> R) (t c : R) (fuel : nat) (a b : R) : R * R :=
  match fuel with
  | O => (a, b)
  | S fuel' =>
    if Rlt_dec t (Rabs (b - a)) then
      if Req_EM_T (f c) 0 then (a, b)
      else if Rlt_dec (f c * f a) 0 then bisect_loop f t c fuel' a c
      else bisect_loop f t c fuel' c b
    else (a, b)
  end.
(* result: (reported success, x) *)
Definition bisect (f : R -> R) (A B t : R) (itmax : nat) : bool * R :=
  let c := (B - A) / 2 in
  let '(a, b) := bisect_loop f t c itmax A B in
  ((if Rlt_dec (Rabs (b - a)) t then true else false), c).

(* findRootBrent 1105-1245: loop state *)
Record bst := BS { sa : R; sb : R; sc : R; fa : R; fb : R; fc : R; be : R; bd : R }.

(* 1157-1165 *)
Definition brent_swap (s : bst) : bst :=
  if Rlt_dec (Rabs (fc s)) (Rabs (fb s))
  then BS (sb s) (sc s) (sb s) (fb s) (fc s) (fb s) (be s) (bd s) else s.
(* 1167-1168 *)
Definition brent_tol (eps t : R) (s : bst) : R := 2 * eps * Rabs (sb s) + t.
Definition brent_m (s : bst) : R := / 2 * (sc s - sb s).
(* 1178-1221: the step (e,d) *)
Definition brent_ed (tol m : R) (s : bst) : R * R :=
  if (if Rlt_dec (Rabs (be s)) tol then true else false) || (if Rle_dec (Rabs (fa s)) (Rabs (fb s)) then true else false)
  then (m, m)
  else
    let s0 := fb s / fa s in
    let '(p, q) :=
      if Req_EM_T (sa s) (sc s) then (2 * m * s0, 1 - s0)
      else let q := fa s / fc s in let r := fb s / fc s in
           (s0 * (2 * m * q * (q - r) - (sb s - sa s) * (r - 1)), (q - 1) * (r - 1) * (s0 - 1)) in
    let '(p, q) := if Rlt_dec 0 p then (p, - q) else (- p, q) in
    if (if Rlt_dec (2 * p) (3 * m * q - Rabs (tol * q)) then true else false)
       && (if Rlt_dec p (Rabs (/ 2 * be s * q)) then true else false)
    then (bd s, p / q) else (m, m).
(* 1222-1249: the new iterate *)
Definition brent_move (f : R -> R) (tol m : R) (ed : R * R) (s : bst) : bst :=
  let e := fst ed in let d := snd ed in
  let sb' := if Rlt_dec tol (Rabs d) then sb s + d else if Rlt_dec 0 m then sb s + tol else sb s - tol in
  let fb' := f sb' in
  if ((if Rlt_dec 0 fb' then true else false) && (if Rlt_dec 0 (fc s) then true else false))
     || ((if Rle_dec fb' 0 then true else false) && (if Rle_dec (fc s) 0 then true else false))
  then BS (sb s) sb' (sb s) (fb s) fb' (fb s) (sb' - sb s) (sb' - sb s)
  else BS (sb s) sb' (sc s) (fb s) fb' (fc s) e d.
Inductive brent_res := Root (x : R) | NoBracket | Gives_up.
Fixpoint brent_loop (f : R -> R) (eps t : R) (fuel : nat) (s0 : bst) : brent_res :=
  match fuel with
  | O => Gives_up (* GISMO_ERROR 1253 *)
  | S fuel' =>
    let s := brent_swap s0 in
    let tol := brent_tol eps t s in
    let m := brent_m s in
    if (if Rle_dec (Rabs m) tol then true else false) || (if Req_EM_T (fb s) 0 then true else false)
    then Root (sb s)
    else brent_loop f eps t fuel' (brent_move f tol m (brent_ed tol m s) s)
  end.
(* 1137-1153: eps is std::numeric_limits<T>::epsilon().  std::swap(fa,fb) swaps the values only. *)
Definition brent_init (f : R -> R) (a b : R) : bst :=
  let fa0 := f a in let fb0 := f b in
  let '(fa1, fb1) := if Rlt_dec fb0 fa0 then (fb0, fa0) else (fa0, fb0) in
  BS a b a fa1 fb1 fa1 (b - a) (b - a).
Definition brent (f : R -> R) (eps a b t : R) (itmax : nat) : brent_res :=
  if Rle_dec 0 (f a * f b) then NoBracket else brent_loop f eps t itmax (brent_init f a b).

(* ------------------------------------------------------------------ *)
(* eval_theta 455-578 for one column (Cs, Ns, Es have one column in every call of the class).
   Arguments: the interval computed by _theta_interval (620-776, modelled in TFTIvModel) and the result of
   gsFunction::newtonRaphson (external) started at x.  th0 is the value of theta on entry (0). *)
Section EvalTheta.
  Variables (f : R -> R) (check : R -> bool) (eps : R) (itmax : nat) (newton : R -> R).

  (* 482-494 and 519-531 *)
  Definition search (a b : R) : outcome R :=
    match brent f eps a b (/ 10 ^ 18) itmax with
    | Root x => Ok x
    | Gives_up => Throw
    | NoBracket => let '(ok, x) := bisect f a b (/ 10 ^ 6) itmax in if ok then Ok x else Ok (newton a)
    end.

  (* 500: LinSpaced(51,0,pi) *)
  Definition grid (i : nat) : R := INR i * PI / 50.
  (* 511-513 *)
  Definition sign_changes : list (R * R) :=
    map (fun i => (grid i, grid (S i)))
        (filter (fun i => if Rlt_dec (f (grid i) * f (grid (S i))) 0 then true else false) (seq 0 50)).
  (* 516-533 *)
  Fixpoint search_all (l : list (R * R)) : outcome (list R) :=
    match l with
    | [] => Ok []
    | (a, b) :: l' =>
      match search a b with
      | Ok x => match search_all l' with Ok xs => Ok (x :: xs) | Throw => Throw | UB => UB end
      | Throw => Throw | UB => UB
      end
    end.
  Definition candidates (roots : list R) : list R :=
    roots ++ (if Rle_dec (f (grid 0) * f (grid 50)) 0 then [0] else []).

  Definition eval_theta (lo hi th0 : R) : outcome R :=
    let first := if Req_EM_T lo 0 then Ok th0 else if Req_EM_T hi 0 then Ok th0 else search lo hi in
    match first with
    | Ok th =>
      if negb (check th) || ((if Req_EM_T lo 0 then true else false) && (if Req_EM_T hi 0 then true else false))
      then match search_all sign_changes with
           | Ok roots => match find check (candidates roots) with Some x => Ok x | None => Ok 0 end
           | Throw => Throw | UB => UB
           end
      else Ok th
    | Throw => Throw | UB => UB
    end.
End EvalTheta.

(* ------------------------------------------------------------------ *)
(* Dispatch on the tension-field value: 127-150 (strain), 170-194 (stress), 383-406 and 425-450 (matrix).
   [value] is the inner material's value in the column, [scaled] that value times SlackMultiplier,
   [wrinkled] the modified value. *)
Definition dispatch {A} (tf : R) (value scaled : A) (wrinkled : outcome A) : outcome A :=
  if Req_EM_T tf 1 then Ok value
  else if Req_EM_T tf (-1) then Ok scaled
  else if Req_EM_T tf 0 then wrinkled
  else Throw.

(* the two loops; the columns of [result] are updated in place; a column is read only before it is overwritten *)
Fixpoint tft_inner {A} (n k : nat) (G : nat -> nat -> A -> outcome A) (js : list nat) (s : nat -> A) : outcome (nat -> A) :=
  match js with
  | [] => Ok s
  | j :: js' => match G k j (s (colIdx n k j)) with
                | Ok v => tft_inner n k G js' (fun i => if Nat.eqb i (colIdx n k j) then v else s i)
                | Throw => Throw | UB => UB end
  end.
Fixpoint tft_outer {A} (n m : nat) (G : nat -> nat -> A -> outcome A) (ks : list nat) (s : nat -> A) : outcome (nat -> A) :=
  match ks with
  | [] => Ok s
  | k :: ks' => match tft_inner n k G (seq 0 m) s with
                | Ok s' => tft_outer n m G ks' s' | Throw => Throw | UB => UB end
  end.
Definition tft_loop {A} (n m : nat) (G : nat -> nat -> A -> outcome A) (inner_result : nat -> A) : outcome (nat -> A) :=
  tft_outer n m G (seq 0 n) inner_result.

(* The inner material as seen by the TFT class: values at (k,j) obtained by single-point calls
   (u.col(k), z(j,k)); the batched values are the columns of inner_result.  [theta] is eval_theta. *)
Section Dispatch.
  Variables (TF : nat -> R) (mult : R) (n : nat).
  Variables (C1 : nat -> nat -> mat) (N1 E1 : nat -> nat -> vec) (dC1 : nat -> nat -> ten3).
  Variable theta : mat -> vec -> vec -> outcome R.
  Definition smul (c : R) (v : vec) : vec := fun i => v i * c.
  Definition mmulc (c : R) (M : mat) : mat := fun i j => M i j * c.
  Definition bindo {A B} (x : outcome A) (g : A -> outcome B) : outcome B :=
    match x with Ok a => g a | Throw => Throw | UB => UB end.

  (* eval3D_strain 117-152 *)
  Definition strain_at (k j : nat) (v : vec) : outcome vec :=
    dispatch (TF (colIdx n k j)) v (smul mult v)
      (bindo (theta (C1 k j) (N1 k j) (E1 k j)) (fun th => Ok (compute_E th (C1 k j) (N1 k j) (E1 k j)))).
  (* eval3D_stress 155-196: N is the column of the batched stress *)
  Definition stress_at (k j : nat) (v : vec) : outcome vec :=
    dispatch (TF (colIdx n k j)) v (smul mult v)
      (bindo (theta (C1 k j) v (E1 k j)) (fun th => Ok (compute_S th (C1 k j) v))).
  (* eval3D_matrix, linear inner material 366-409: C is the column of the batched matrix *)
  Definition matrix_lin_at (k j : nat) (M : mat) : outcome mat :=
    dispatch (TF (colIdx n k j)) M (mmulc mult M)
      (bindo (theta M (N1 k j) (E1 k j)) (fun th => Ok (compute_C_lin th M (N1 k j)))).
  (* eval3D_matrix, other inner materials 411-452: dC *= 2 *)
  Definition matrix_gen_at (k j : nat) (M : mat) : outcome mat :=
    dispatch (TF (colIdx n k j)) M (mmulc mult M)
      (bindo (theta M (N1 k j) (E1 k j)) (fun th => Ok (compute_C_gen th M (N1 k j) (fun a b d => dC1 k j a b d * 2)))).
  (* eval3D_pstress 61-86, eval3D_pstrain 89-114: wrinkled columns are left unchanged *)
  Definition principal_at (k j : nat) (v : vec) : outcome vec :=
    dispatch (TF (colIdx n k j)) v (smul mult v) (Ok v).
  (* eval3D_CauchyStress 199-243: detF = sqrt(J0_sq), the stress is divided by sqrt(detF) *)
  Definition cauchy_at (J0sq : nat -> nat -> R) (k j : nat) (v : vec) : outcome vec :=
    dispatch (TF (colIdx n k j)) v (smul mult v)
      (bindo (theta (C1 k j) (N1 k j) (E1 k j))
         (fun th => Ok (fun i => compute_S th (C1 k j) (N1 k j) i / sqrt (sqrt (J0sq k j) * 1)))).
End Dispatch.

(* ------------------------------------------------------------------ *)
(* _compute_TF 779-792.  The state is (deformed geometry of the inner material); geometries are of type P,
   a null shared pointer is None.  [tf] is the inner material's eval3D_tensionfield for its current geometry. *)
Section Explicit.
  Context {P V : Type}.
  Variable tf : option P -> outcome V.
  Definition compute_TF (explicit : bool) (frozen inner : option P) : outcome V * option P :=
    if explicit then
      match tf frozen with
      | Ok v => (Ok v, inner)
      | Throw => (Throw, frozen)
      | UB => (UB, frozen)
      end
    else (tf inner, inner).

  (* the calls a client can make on the TFT object (gsMaterialMatrixTFT.h 204-242) *)
  Inductive tft_call := SetDeformed (p : option P) | UpdateDeformed (p : option P) | SetExplicit (b : bool) | EvalTF.
  Record tft_state := TS { own_def : option P; inner_def : option P; frozen_def : option P; explicit_on : bool }.
  (* one call; a throwing evaluation leaves the state it had reached *)
  Definition tft_step (s : tft_state) (c : tft_call) : tft_state * option (outcome V) :=
    match c with
    | SetDeformed p => (TS p p (frozen_def s) (explicit_on s), None)
    | UpdateDeformed p => (TS (own_def s) (inner_def s) p (explicit_on s), None)
    | SetExplicit b => (TS (own_def s) (inner_def s) (frozen_def s) b, None)
    | EvalTF => let '(r, d) := compute_TF (explicit_on s) (frozen_def s) (inner_def s) in
                (TS (own_def s) d (frozen_def s) (explicit_on s), Some r)
    end.
  Fixpoint tft_run (s : tft_state) (cs : list tft_call) : tft_state * list (outcome V) :=
    match cs with
    | [] => (s, [])
    | c :: cs' => let '(s', r) := tft_step s c in let '(s'', rs) := tft_run s' cs' in
                  (s'', match r with Some v => v :: rs | None => rs end)
    end.
End Explicit.
