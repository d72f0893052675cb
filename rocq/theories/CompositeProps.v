(* Property theorems C16-C20, C72-C74 (laminates). *)
From Coq Require Import Reals Lra Lia List.
From Verif Require IntegrateModel.
From Verif Require Import Tensor MetricModel MetricSpec LinearSpec IntegrateSpec PrincipalSpec PrincipalProofs CompositeModel CompositeSpec CompositeProofs.
Import ListNotations.
Open Scope R_scope.

(* C16: A, B, D are the exact moments 0, 1, 2 of the layered stiffness over the stack, C equals B. *)
Theorem C16_laminate_moments : forall l i j, (forall p, In p l -> 0 <= thick p) ->
  let stack := map (fun p => (thick p, rotatedG (Gply p) (angle p) i j)) l in
  stack_moment stack 0 (laminate MA l i j) /\ stack_moment stack 1 (laminate MB l i j) /\
  stack_moment stack 1 (laminate MC l i j) /\ stack_moment stack 2 (laminate MD l i j).
Proof. exact laminate_moments. Qed.
Print Assumptions C16_laminate_moments.

(* ... and the integrated outputs return them: a laminate is not integrated a second time. *)
Theorem C16_not_integrated_twice : forall l i j o mo k q t, (forall p, In p l -> 0 <= thick p) ->
  In (o, mo, k) [(IntegrateModel.MatrixA, MA, 0%nat); (IntegrateModel.MatrixB, MB, 1%nat); (IntegrateModel.MatrixC, MC, 1%nat); (IntegrateModel.MatrixD, MD, 2%nat)] ->
  exists I, IntegrateModel.eval_into IntegrateModel.Integrated IntegrateModel.Integrated o q t (fun _ => laminate mo l i j) = Ok I /\
    stack_moment (map (fun p => (thick p, rotatedG (Gply p) (angle p) i j)) l) k I.
Proof.
  intros l i j o mo k q t P H. exists (laminate mo l i j). destruct (laminate_moments l i j P) as (A & B & C & D). cbn [In] in H.
  repeat (destruct H as [H|H]; [injection H as <- <- <-; split; [reflexivity|assumption]|]). destruct H.
Qed.
Print Assumptions C16_not_integrated_twice.

(* C17: reversing the stacking order negates B (and C), keeps A and D; symmetric lay-ups have B = C = 0. *)
Theorem C17_reversal : forall l i j,
  laminate MA (rev l) i j = laminate MA l i j /\ laminate MB (rev l) i j = - laminate MB l i j /\
  laminate MC (rev l) i j = - laminate MC l i j /\ laminate MD (rev l) i j = laminate MD l i j.
Proof. exact laminate_reversal. Qed.
Print Assumptions C17_reversal.
Theorem C17_symmetric_uncoupled : forall l i j, rev l = l -> laminate MB l i j = 0 /\ laminate MC l i j = 0.
Proof. exact symmetric_no_coupling. Qed.
Print Assumptions C17_symmetric_uncoupled.

(* C18: the rotated ply has the energy of the ply under the strain seen from axes turned by phi ... *)
Theorem C18_rotated_energy : forall G phi e, symmetric 2 e -> quad (rotatedG G phi) (eng e) = quad G (eng (turned phi e)).
Proof. exact rotatedG_energy_turned. Qed.
Print Assumptions C18_rotated_energy.
(* ... rotation by 0 and pi is trivial, rotations compose, symmetry and definiteness are kept ... *)
Theorem C18_group_action : forall G a b, eq3 (rotatedG G 0) G /\ eq3 (rotatedG G (a + PI)) (rotatedG G a) /\
  eq3 (rotatedG G (a + b)) (rotatedG (rotatedG G a) b).
Proof. exact (fun G a b => conj (rotatedG_zero G) (conj (rotatedG_pi G a) (rotatedG_plus G a b))). Qed.
Print Assumptions C18_group_action.
Theorem C18_symmetry_definiteness : forall G phi, (symmetric 3 G -> symmetric 3 (rotatedG G phi)) /\ (posdef3 G -> posdef3 (rotatedG G phi)).
Proof. exact (fun G phi => conj (rotatedG_sym G phi) (rotatedG_posdef G phi)). Qed.
Print Assumptions C18_symmetry_definiteness.
(* ... isotropic plies are unaffected, and two invariants are preserved. *)
Theorem C18_isotropic : forall G phi, isotropic3 G -> eq3 (rotatedG G phi) G.
Proof. exact rotatedG_iso. Qed.
Print Assumptions C18_isotropic.
Theorem C18_invariants : forall G phi, let Q := rotatedG G phi in
  Q 0%nat 0%nat + Q 0%nat 1%nat + Q 1%nat 0%nat + Q 1%nat 1%nat = G 0%nat 0%nat + G 0%nat 1%nat + G 1%nat 0%nat + G 1%nat 1%nat /\
  4 * Q 2%nat 2%nat - Q 0%nat 1%nat - Q 1%nat 0%nat + Q 0%nat 0%nat + Q 1%nat 1%nat - (4 * G 2%nat 2%nat - G 0%nat 1%nat - G 1%nat 0%nat + G 0%nat 0%nat + G 1%nat 1%nat) = 0.
Proof. exact (fun G phi => conj (rotatedG_invariant G phi) (rotatedG_invariant2 G phi)). Qed.
Print Assumptions C18_invariants.

(* C19: the resultants are A eps and D kappa, for every lay-up ... *)
Theorem C19_resultants_omit_coupling : forall l go gd,
  exists N M, eval3D_vector VN l go gd = Ok N /\ eval3D_vector VM l go gd = Ok M /\ forall r, (r < 3)%nat ->
   N r = mvec3 (eval3D_matrix MA l go) (eng (membrane_strain go gd)) r /\
   M r = mvec3 (eval3D_matrix MD l go) (eng (fun i j => Bcov go i j - Bcov gd i j)) r.
Proof. exact resultants_omit. Qed.
Print Assumptions C19_resultants_omit_coupling.
(* ... any other output is refused with an exception ... *)
Theorem C19_other_outputs : forall out l go gd, (eval3D_vector out l go gd = Throw <-> out = VOther) /\ eval3D_vector out l go gd <> UB.
Proof. intros [| |] l go gd; split; try split; discriminate || reflexivity. Qed.
Print Assumptions C19_other_outputs.
(* ... which is the full laminate response for symmetric lay-ups ... *)
Theorem C19_symmetric_layup : forall l go gd r, rev l = l -> (r < 3)%nat ->
  exists N M, eval3D_vector VN l go gd = Ok N /\ eval3D_vector VM l go gd = Ok M /\
   N r = mvec3 (eval3D_matrix MA l go) (eng (membrane_strain go gd)) r + mvec3 (eval3D_matrix MB l go) (eng (fun i j => Bcov go i j - Bcov gd i j)) r /\
   M r = mvec3 (eval3D_matrix MC l go) (eng (membrane_strain go gd)) r + mvec3 (eval3D_matrix MD l go) (eng (fun i j => Bcov go i j - Bcov gd i j)) r.
Proof. exact resultants_symmetric. Qed.
Print Assumptions C19_symmetric_layup.
(* ... and wrong for an unsymmetric one. *)
Theorem C19_unsymmetric_refuted : exists l go gd N, regular go /\ regular gd /\ eval3D_vector VN l go gd = Ok N /\
   N 0%nat <> mvec3 (eval3D_matrix MA l go) (eng (membrane_strain go gd)) 0%nat + mvec3 (eval3D_matrix MB l go) (eng (fun i j => Bcov go i j - Bcov gd i j)) 0%nat.
Proof. exact resultants_refuted. Qed.
Print Assumptions C19_unsymmetric_refuted.

(* C20: the orthotropic ply matrix is symmetric under its own check, inverts the compliance, is positive definite. *)
Theorem C20_orthotropic : forall Exx Eyy Gxy nuxy nuyx,
  (nuyx * Exx = nuxy * Eyy -> symmetric 3 (gsCompositeMatrix Exx Eyy Gxy nuxy nuyx)) /\
  (Exx <> 0 -> Eyy <> 0 -> Gxy <> 0 -> 1 - nuxy * nuyx <> 0 ->
   eq3 (mmul3 (gsCompositeMatrix Exx Eyy Gxy nuxy nuyx) (compliance Exx Eyy Gxy nuxy nuyx)) delta).
Proof. exact (fun a b c d e => conj (composite_matrix_sym a b c d e) (composite_matrix_inverse a b c d e)). Qed.
Print Assumptions C20_orthotropic.
Theorem C20_orthotropic_posdef : forall Exx Eyy Gxy nuxy nuyx, 0 < Exx -> 0 < Eyy -> 0 < Gxy -> nuxy * nuyx < 1 -> nuyx * Exx = nuxy * Eyy ->
  posdef3 (gsCompositeMatrix Exx Eyy Gxy nuxy nuyx).
Proof. exact composite_matrix_posdef. Qed.
Print Assumptions C20_orthotropic_posdef.
(* C20: the nine-argument constructor puts every argument where its name says iff G12 = G21; the six-argument one is symmetric. *)
Theorem C20_raw_positions : forall G11 G22 G33 G12 G13 G23 G21 G31 G32,
  let named := fun i j : nat => match i, j with
    | 0%nat, 0%nat => G11 | 0%nat, 1%nat => G12 | 0%nat, 2%nat => G13
    | 1%nat, 0%nat => G21 | 1%nat, 1%nat => G22 | 1%nat, 2%nat => G23
    | 2%nat, 0%nat => G31 | 2%nat, 1%nat => G32 | _, _ => G33 end in
  (eq3 (gsCompositeMatrixRaw9 G11 G22 G33 G12 G13 G23 G21 G31 G32) named <-> G12 = G21) /\
  symmetric 3 (gsCompositeMatrixRaw6 G11 G22 G33 G12 G13 G23) /\
  (G12 = G21 -> G13 = G31 -> G23 = G32 -> eq3 (gsCompositeMatrixRaw6 G11 G22 G33 G12 G13 G23) named).
Proof. exact raw_positions. Qed.
Print Assumptions C20_raw_positions.

(* C72: in shell coordinates the laminate keeps its energy when the surface tangents are orthogonal ... *)
Theorem C72_orthogonal_energy : forall g, regular g -> Acov g 0%nat 1%nat = 0 -> forall out l E, symmetric 2 E ->
  quad (eval3D_matrix out l g) (eng E) =
  quad (laminate out l) (eng (tensor_on E (gcon g 0) (fun i => match i with 0%nat => e1_of g | _ => e2_of g end))).
Proof. exact ortho_energy. Qed.
Print Assumptions C72_orthogonal_energy.
(* ... the stress transformation is right exactly when its entry (0,1) is by accident ... *)
Theorem C72_cart2cov_iff : forall a1 a2 e1 e2,
  (forall X r, symmetric 2 X -> (r < 3)%nat -> mvec3 (cart2cov_pre a1 a2 e1 e2) (voigt3 X) r =
      voigt3 (tensor_on X (fun i => match i with 0%nat => a1 | _ => a2 end) (fun i => match i with 0%nat => e1 | _ => e2 end)) r) <->
  (dot3 e1 a2 = 0 \/ dot3 e1 a2 = dot3 e2 a2).
Proof. exact cart2cov_iff. Qed.
Print Assumptions C72_cart2cov_iff.
(* ... and on a skew parametrisation the energy is wrong. *)
Theorem C72_skew_refuted : exists g l E, regular g /\ (forall p, In p l -> 0 < thick p /\ posdef3 (Gply p)) /\ symmetric 2 E /\
  quad (eval3D_matrix MA l g) (eng E) <>
  quad (laminate MA l) (eng (tensor_on E (gcon g 0) (fun i => match i with 0%nat => e1_of g | _ => e2_of g end))).
Proof. exact skew_witness. Qed.
Print Assumptions C72_skew_refuted.

(* C73: every laminate of positive definite plies stores positive energy in every membrane-bending state. *)
Theorem C73_abd_positive_definite : forall l eps kap, l <> [] -> (forall p, In p l -> 0 < thick p /\ posdef3 (Gply p)) ->
  (exists r, (r < 3)%nat /\ (eps r <> 0 \/ kap r <> 0)) ->
  0 < quad (laminate MA l) eps + bilin (laminate MB l) eps kap + bilin (laminate MC l) kap eps + quad (laminate MD l) kap.
Proof. exact abd_posdef. Qed.
Print Assumptions C73_abd_positive_definite.

(* C74: the density is the mass per area of the stack; without densities any query on a non-empty stack is undefined. *)
Theorem C74_density : forall l rho, length l = length rho ->
  density_into l (Some rho) = Ok (fold_right Rplus 0 (map (fun pr => thick (fst pr) * snd pr) (combine l rho))).
Proof. exact density_total. Qed.
Print Assumptions C74_density.
Theorem C74_no_density_refuted : forall l, l <> [] -> density_into l None = UB.
Proof. exact density_null. Qed.
Print Assumptions C74_no_density_refuted.

(* ---- concrete cases ---- *)
Example C16_case : (forall p, In p ex_plies -> 0 <= thick p) /\ laminate MB ex_plies 0%nat 0%nat = - (1 / 2).
Proof. split; [intros p [<-|[<-|[]]]; cbn; lra|exact ex_B]. Qed.
Example C17_case : let p := mkPly 1 delta 1 in let q := mkPly 2 (mscal 2 delta) 0 in rev [p; q; p] = [p; q; p].
Proof. reflexivity. Qed.
Example C18_iso_case : isotropic3 (gsCompositeMatrix 3 3 (1) (1/2) (1/2)).
Proof. unfold isotropic3, gsCompositeMatrix. repeat split; field. Qed.
Example C20_case : posdef3 (gsCompositeMatrix 4 2 1 (1/2) (1/4)).
Proof. apply C20_orthotropic_posdef; lra. Qed.
Example C72_case : regular ex_bent /\ Acov ex_bent 0%nat 1%nat = 0.
Proof. split; [exact bent_regular|cbv; ring]. Qed.
Example C73_case : 0 < quad (laminate MA [mkPly 1 (gsCompositeMatrix 4 2 1 (1/2) (1/4)) 1]) (fun _ => 1)
   + bilin (laminate MB [mkPly 1 (gsCompositeMatrix 4 2 1 (1/2) (1/4)) 1]) (fun _ => 1) (fun _ => 0)
   + bilin (laminate MC [mkPly 1 (gsCompositeMatrix 4 2 1 (1/2) (1/4)) 1]) (fun _ => 0) (fun _ => 1)
   + quad (laminate MD [mkPly 1 (gsCompositeMatrix 4 2 1 (1/2) (1/4)) 1]) (fun _ => 0).
Proof.
  apply C73_abd_positive_definite; [discriminate| |exists 0%nat; split; [lia|left; lra]].
  intros p [<-|[]]. split; [cbn; lra|apply C20_orthotropic_posdef; lra].
Qed.
