(* Model of material selection and storage: identifiers (src/gsMaterialMatrixUtils.h), the factory (src/getMaterialMatrix.h),
   parameter setters (src/gsMaterialMatrixBase.h, Linear.h, Nonlinear.hpp), XML (src/gsMaterialMatrixXml.hpp) and the per-patch
   container (src/gsMaterialMatrixContainer.hpp).
   Functions (thickness, density, parameters) are elements of an abstract type F; an optional F is a possibly null pointer. *)
From Coq Require Import ZArith String List Bool Arith Lia.
Import ListNotations.
Open Scope Z_scope.

(* result of an operation: a value, an exception, a null pointer, or undefined behaviour *)
Inductive res (A : Type) := Val (a : A) | Throws | Null | Undef.
Arguments Val {A} a. Arguments Throws {A}. Arguments Null {A}. Arguments Undef {A}.
Definition rbind {A B} (r : res A) (k : A -> res B) : res B :=
  match r with Val a => k a | Throws => Throws | Null => Null | Undef => Undef end.

(* gsMaterialMatrixUtils.h 50-57 and 70-76: enumerators of Material and Implementation *)
Definition SvK := 0. Definition NH := 1. Definition NH_ext := 2. Definition MR := 3. Definition OG := 4.
Definition Composite := 0. Definition Analytical := 1. Definition Generalized := 2. Definition Spectral := 3.

(* conversion of an int to the underlying type short of both enumerations (static_cast in getMaterialMatrix.h 130-131);
   the conversion is modulo 2^16 on every supported compiler *)
Definition to_short (z : Z) : Z := (z + 32768) mod 65536 - 32768.

(* gsMaterialMatrixUtils.h 154-157 *)
Definition encode (mat impl : Z) : Z := to_short (10 * impl + mat).
(* gsMaterialMatrixUtils.h 167-171: C++ % and / truncate towards zero *)
Definition decode_mat (id : Z) : Z := Z.rem id 10.
Definition decode_impl (id : Z) : Z := Z.rem (Z.quot id 10) 10.

(* the class of a material object: gsMaterialMatrixLinear<d>, gsMaterialMatrixNonlinear<d,id,comp>, gsMaterialMatrixComposite<d> *)
Inductive law := LLinear | LNonlinear (id : Z) (comp : bool) | LComposite.
Record cls := { c_dim : nat; c_law : law }.

(* getMaterialMatrix.h 126-262 (with density) and 290-426 (without): the option lookups have defaults Material 0,
   Compressibility false, Implementation 1; npar is parameters.size() (parameters.at throws when too short).
   The two overloads have the same decision table. *)
Definition factory (d : nat) (npar : nat) (omat : option Z) (ocomp : option bool) (oimpl : option Z) : res cls :=
  let mat := to_short (match omat with Some m => m | None => 0 end) in
  let comp := match ocomp with Some c => c | None => false end in
  let impl := to_short (match oimpl with Some i => i | None => 1 end) in
  let mk m i c := Val {| c_dim := d; c_law := LNonlinear (encode m i) c |} in
  if mat =? SvK then
    if impl =? Composite then Throws
    else if (npar <? 2)%nat then Throws else Val {| c_dim := d; c_law := LLinear |}
  else
    if impl =? Composite then Throws
    else if (mat =? NH) && (impl =? Analytical) && negb comp then mk NH Analytical false
    else if (mat =? NH) && (impl =? Generalized) && negb comp then mk NH Generalized false
    else if (mat =? NH) && (impl =? Spectral) && negb comp then mk NH Spectral false
    else if (mat =? NH) && (impl =? Analytical) && comp then mk NH Analytical true
    else if (mat =? NH) && (impl =? Generalized) && comp then mk NH Generalized true
    else if (mat =? NH) && (impl =? Spectral) && comp then mk NH Spectral true
    else if (mat =? NH_ext) && negb comp then Throws
    else if (mat =? NH_ext) && (impl =? Analytical) && comp then mk NH_ext Analytical true
    else if (mat =? NH_ext) && (impl =? Generalized) && comp then mk NH_ext Generalized true
    else if (mat =? NH_ext) && (impl =? Spectral) && comp then mk NH_ext Spectral true
    else if (mat =? MR) && (impl =? Analytical) && negb comp then mk MR Analytical false
    else if (mat =? MR) && (impl =? Generalized) && negb comp then mk MR Generalized false
    else if (mat =? MR) && (impl =? Spectral) && negb comp then mk MR Spectral false
    else if (mat =? MR) && (impl =? Analytical) && comp then mk MR Analytical true
    else if (mat =? MR) && (impl =? Generalized) && comp then mk MR Generalized true
    else if (mat =? MR) && (impl =? Spectral) && comp then mk MR Spectral true
    else if (mat =? OG) && (impl =? Analytical) && negb comp then Throws
    else if (mat =? OG) && (impl =? Generalized) && negb comp then Throws
    else if (mat =? OG) && (impl =? Spectral) && negb comp then mk OG Spectral false
    else if (mat =? OG) && (impl =? Analytical) && comp then Throws
    else if (mat =? OG) && (impl =? Generalized) && comp then Throws
    else if (mat =? OG) && (impl =? Spectral) && comp then mk OG Spectral true
    else Null.

Section Functions.
Context {F : Type}.

(* the data members of a material that matter here (gsMaterialMatrixBase.h: m_thickness, m_density, m_pars) *)
Record material := { m_cls : cls; m_thick : option F; m_dens : option F; m_pars : list (option F) }.
Definition fresh (c : cls) : material := {| m_cls := c; m_thick := None; m_dens := None; m_pars := [] |}.
Definition with_thick (m : material) (t : option F) := {| m_cls := m_cls m; m_thick := t; m_dens := m_dens m; m_pars := m_pars m |}.
Definition with_dens (m : material) (t : option F) := {| m_cls := m_cls m; m_thick := m_thick m; m_dens := t; m_pars := m_pars m |}.
Definition with_pars (m : material) (p : list (option F)) :=
  {| m_cls := m_cls m; m_thick := m_thick m; m_dens := m_dens m; m_pars := p |}.

Open Scope nat_scope.
Fixpoint upd (l : list (option F)) (i : nat) (x : option F) : list (option F) :=
  match l, i with
  | [], _ => []
  | _ :: l', 0%nat => x :: l'
  | a :: l', S i' => a :: upd l' i' x
  end.
(* std::vector::resize to a size not smaller than the present one, or smaller *)
Definition resize (l : list (option F)) (n : nat) : list (option F) := firstn n l ++ repeat None (n - length l).

(* gsMaterialMatrixBase.h 692-695, 702-705, 713-717 and 725-729 *)
Definition setParameters (m : material) (ps : list (option F)) : material := with_pars m ps.
Definition setParameter_ptr (m : material) (i : nat) (x : option F) : res material :=
  if (i <? length (m_pars m))%nat then Val (with_pars m (upd (m_pars m) i x)) else Undef.
Definition setParameter_ref (m : material) (i : nat) (x : F) : material :=
  let l := if (length (m_pars m) <? i + 1)%nat then resize (m_pars m) (i + 1) else m_pars m in
  with_pars m (upd l i (Some x)).
(* gsMaterialMatrixBase.h 738-742 (the check is active in debug builds only) *)
Definition getParameter (m : material) (i : nat) : res (option F) :=
  match nth_error (m_pars m) i with Some x => Val x | None => Undef end.

(* named setters: gsMaterialMatrixLinear.h 218-224; gsMaterialMatrixNonlinear.hpp 1082-1200 (NH, NH_ext, MR, OG: indices 0 and 1;
   Ratio only for MR: index 2; Mu_i, Alpha_i only for OG: indices 2+2i, 2+2i+1).  Otherwise GISMO_NO_IMPLEMENTATION throws.
   gsMaterialMatrixComposite has none of them. *)
Inductive pname := PYoungs | PPoisson | PRatio | PMu (i : nat) | PAlpha (i : nat).
Definition slot (l : law) (p : pname) : option nat :=
  match l, p with
  | LLinear, PYoungs => Some 0 | LLinear, PPoisson => Some 1
  | LNonlinear _ _, PYoungs => Some 0 | LNonlinear _ _, PPoisson => Some 1
  | LNonlinear id _, PRatio => if (decode_mat id =? MR)%Z then Some 2 else None
  | LNonlinear id _, PMu i => if (decode_mat id =? OG)%Z then Some (2 + 2 * i) else None
  | LNonlinear id _, PAlpha i => if (decode_mat id =? OG)%Z then Some (2 + 2 * i + 1) else None
  | _, _ => None
  end.
Definition setNamed (m : material) (p : pname) (x : F) : res material :=
  match slot (c_law (m_cls m)) p with Some i => Val (setParameter_ref m i x) | None => Throws end.
Definition getNamed (m : material) (p : pname) : res (option F) :=
  match slot (c_law (m_cls m)) p with Some i => getParameter m i | None => Throws end.

(* what a stress evaluation reads: gsMaterialMatrixBaseDim.hpp 403-412 dereferences every parameter; Linear.hpp reads entries 0 and 1;
   Nonlinear.hpp reads 0, 1 and, for MR, entry 2 (the Analytical implementation after GISMO_ENSURE(m_pars.size()==3), 1703, 1787;
   the others without a check, 2137-2142, 2414, 2431), for OG the (m_pars.size()-2)/2 pairs (2443-2465).
   Reading outside m_parvals (gsVector::at, not checked in release builds) and the wrap-around of size()-2 are undefined. *)
Fixpoint all_set (l : list (option F)) : option (list F) :=
  match l with
  | [] => Some []
  | Some x :: r => match all_set r with Some r' => Some (x :: r') | None => None end
  | None :: _ => None
  end.
Record reading := { r_E : F; r_nu : F; r_ratio : option F; r_terms : list (F * F) }.
Fixpoint pairs (l : list F) : list (F * F) := match l with a :: b :: r => (a, b) :: pairs r | _ => [] end.
Definition law_reads (m : material) : res reading :=
  match all_set (m_pars m) with
  | None => Undef
  | Some ps =>
      match c_law (m_cls m), ps with
      | LLinear, E :: nu :: _ => Val {| r_E := E; r_nu := nu; r_ratio := None; r_terms := [] |}
      | LNonlinear id _, _ =>
          if (decode_mat id =? MR)%Z then
            if (decode_impl id =? Analytical)%Z && negb (length ps =? 3) then Throws
            else match ps with E :: nu :: c :: _ => Val {| r_E := E; r_nu := nu; r_ratio := Some c; r_terms := [] |} | _ => Undef end
          else match ps with
               | E :: nu :: rest => Val {| r_E := E; r_nu := nu; r_ratio := None;
                                           r_terms := if (decode_mat id =? OG)%Z then pairs rest else [] |}
               | _ => Undef
               end
      | _, _ => Undef
      end
  end.

(* ---- XML ---- *)
Context {X : Type} (wr : F -> X) (rd : X -> option F).
(* putFunctionToXml and gsXml<gsFunctionExpr>::get_into belong to the core library and are the arguments wr and rd;
   rd x = None means the node is not a function expression (undefined behaviour or exception in the core library). *)
Record node := { n_type : option string; n_TFT : option string; n_thick : option X; n_dens : option X; n_pars : option (list (nat * X)) }.

(* a tension-field wrapper gsMaterialMatrixTFT<dim,linear> with its own base members and the wrapped material *)
Inductive obj := Plain (m : material) | TFT (dim : nat) (linear : bool) (own : material) (inner : material).

(* type strings (gsMaterialMatrixLinear.h / Nonlinear.h, specialisations of gsXml<...>::type) of the classes listed in put_impl 192-265 *)
Definition dimstr (d : nat) : option string := match d with 2 => Some "2"%string | 3 => Some "3"%string | _ => None end.
Definition lawstr (l : law) : option string :=
  match l with
  | LLinear => Some "Linear"%string
  | LNonlinear id comp =>
      if (id =? 11)%Z then Some (if comp then "CompressibleNH" else "IncompressibleNH")%string
      else if (id =? 12)%Z then if comp then Some "CompressibleNHe"%string else None
      else if (id =? 13)%Z then Some (if comp then "CompressibleMR" else "IncompressibleMR")%string
      else if (id =? 34)%Z then Some (if comp then "CompressibleOG" else "IncompressibleOG")%string
      else None
  | LComposite => None
  end.
Definition type_of (c : cls) : option string :=
  match lawstr (c_law c), dimstr (c_dim c) with Some a, Some b => Some (a ++ b)%string | _, _ => None end.

(* gsMaterialMatrixXml.hpp 313-347; a null thickness or parameter is dereferenced (327, 341) *)
Definition put_members (s : string) (m : material) : res node :=
  match m_thick m, all_set (m_pars m) with
  | Some t, Some ps =>
      Val {| n_type := Some s; n_TFT := None; n_thick := Some (wr t);
             n_dens := option_map wr (m_dens m);
             n_pars := Some (combine (seq 0 (length ps)) (map wr ps)) |}
  | _, _ => Undef
  end.
(* gsMaterialMatrixXml.hpp 189-269 *)
Definition put_impl (m : material) : res node :=
  match type_of (m_cls m) with Some s => put_members s m | None => Null end.
(* gsMaterialMatrixXml.hpp 168-187: only the wrappers for dimensions 2 and 3 are recognised *)
Definition put (o : obj) : res node :=
  match o with
  | Plain m => put_impl m
  | TFT d _ _ inner =>
      if (d =? 2) || (d =? 3) then
        match put_impl inner with
        | Val n => Val {| n_type := n_type n; n_TFT := Some "true"%string; n_thick := n_thick n; n_dens := n_dens n; n_pars := n_pars n |}
        | Null => Undef   (* 182: append_attribute on a null node *)
        | r => r
        end
      else Null
  end.

(* gsMaterialMatrixXml.hpp 122-163 *)
Definition cls_of (s : string) : option cls :=
  let mk d l := Some {| c_dim := d; c_law := l |} in
  if String.eqb s "Linear2" then mk 2 LLinear
  else if String.eqb s "Linear3" then mk 3 LLinear
  else if String.eqb s "CompressibleNH2" then mk 2 (LNonlinear 11 true)
  else if String.eqb s "CompressibleNH3" then mk 3 (LNonlinear 11 true)
  else if String.eqb s "IncompressibleNH2" then mk 2 (LNonlinear 11 false)
  else if String.eqb s "IncompressibleNH3" then mk 3 (LNonlinear 11 false)
  else if String.eqb s "CompressibleNHe2" then mk 2 (LNonlinear 12 true)
  else if String.eqb s "CompressibleNHe3" then mk 3 (LNonlinear 12 true)
  else if String.eqb s "CompressibleMR2" then mk 2 (LNonlinear 13 true)
  else if String.eqb s "CompressibleMR3" then mk 3 (LNonlinear 13 true)
  else if String.eqb s "IncompressibleMR2" then mk 2 (LNonlinear 13 false)
  else if String.eqb s "IncompressibleMR3" then mk 3 (LNonlinear 13 false)
  else if String.eqb s "CompressibleOG2" then mk 2 (LNonlinear 34 true)
  else if String.eqb s "CompressibleOG3" then mk 3 (LNonlinear 34 true)
  else if String.eqb s "IncompressibleOG2" then mk 2 (LNonlinear 34 false)
  else if String.eqb s "IncompressibleOG3" then mk 3 (LNonlinear 34 false)
  else None.

(* gsMaterialMatrixXml.hpp 303-309 *)
Fixpoint read_pars (m : material) (l : list (nat * X)) : res material :=
  match l with
  | [] => Val m
  | (i, x) :: r => match rd x with Some f => read_pars (setParameter_ref m i f) r | None => Undef end
  end.
(* gsMaterialMatrixXml.hpp 272-311; a missing Thickness or Parameters element is dereferenced *)
Definition get_members (c : cls) (n : node) : res material :=
  match n_thick n with
  | None => Undef
  | Some xt =>
      match rd xt with
      | None => Undef
      | Some t =>
          let m1 := with_thick (fresh c) (Some t) in
          let m2 := match n_dens n with
                    | None => Val m1
                    | Some xd => match rd xd with Some f => Val (with_dens m1 (Some f)) | None => Undef end
                    end in
          rbind m2 (fun m => match n_pars n with None => Undef | Some l => read_pars m l end)
      end
  end.
(* gsMaterialMatrixXml.hpp 110-166 *)
Definition get_impl (n : node) : res material :=
  match n_type n with
  | None => Null
  | Some s => match cls_of s with Some c => get_members c n | None => Null end
  end.
(* gsMaterialMatrixXml.hpp 64-72 *)
Definition is_TFT (a : option string) : bool :=
  match a with Some s => String.eqb s "1" || String.eqb s "true" || String.eqb s "True" | None => false end.
(* gsMaterialMatrixTFT.h 91-104: the wrapper copies the thickness pointer of the material into its own member (geometries are not stored) *)
Definition wrap (d : nat) (linear : bool) (m : material) : obj :=
  TFT d linear (with_thick (fresh (m_cls m)) (m_thick m)) m.
(* gsMaterialMatrixXml.hpp 52-108; the two lists 78-99 are exactly the types known to get_impl, with the dimension and linearity of each *)
Definition is_lin (l : law) : bool := match l with LLinear => true | _ => false end.
Definition get (n : node) : res obj :=
  rbind (get_impl n) (fun m => if is_TFT (n_TFT n) then Val (wrap (c_dim (m_cls m)) (is_lin (c_law (m_cls m))) m) else Val (Plain m)).

(* ---- calls on a tension-field wrapper ---- *)
(* gsMaterialMatrixTFT.h 131-260 overrides density_into, thickness_into and setParameters(vector of raw pointers) by forwarding to the
   wrapped material; setThickness, setDensity, setParameter, setParameters(vector of shared pointers) and all getters are those of
   gsMaterialMatrixBase.h 655-745 and act on the wrapper's own members; the named setters throw (gsMaterialMatrixBase.h 634-653). *)
Inductive wop := WThickness (f : F) | WDensity (f : F) | WParameter (i : nat) (f : F) | WParametersShared (l : list (option F))
  | WParametersRaw (l : list (option F)) | WNamed (p : pname) (f : F).
Definition wstep (o : wop) (own inner : material) : res (material * material) :=
  match o with
  | WThickness f => Val (with_thick own (Some f), inner)
  | WDensity f => Val (with_dens own (Some f), inner)
  | WParameter i f => Val (setParameter_ref own i f, inner)
  | WParametersShared l => Val (setParameters own l, inner)
  | WParametersRaw l => Val (own, setParameters inner l)
  | WNamed _ _ => Throws
  end.
Fixpoint wrun (os : list wop) (own inner : material) : res (material * material) :=
  match os with [] => Val (own, inner) | o :: r => rbind (wstep o own inner) (fun s => wrun r (fst s) (snd s)) end.
(* what evaluations of the wrapper use: gsMaterialMatrixTFT.h 131-136 and m_materialMat->eval3D_... throughout gsMaterialMatrixTFT.hpp *)
Definition used_thickness (s : material * material) : option F := m_thick (snd s).
Definition used_density (s : material * material) : option F := m_dens (snd s).
Definition used_parameters (s : material * material) : res reading := law_reads (snd s).
(* what the getters of the wrapper return: gsMaterialMatrixBase.h 668, 681, 738-750 *)
Definition shown_thickness (s : material * material) : option F := m_thick (fst s).
Definition shown_density (s : material * material) : option F := m_dens (fst s).
Definition shown_numParameters (s : material * material) : nat := length (m_pars (fst s)).

End Functions.
Arguments material F : clear implicits.
Arguments obj F : clear implicits.
Arguments node X : clear implicits.

(* ---- container ---- *)
Section Container.
Context {M : Type}.
Open Scope nat_scope.
(* gsMaterialMatrixContainer.h 83: a vector of shared pointers *)
Definition container := list (option M).
Fixpoint cupd (l : container) (i : nat) (x : option M) : container :=
  match l, i with [], _ => [] | _ :: l', 0%nat => x :: l' | a :: l', S i' => a :: cupd l' i' x end.
(* gsMaterialMatrixContainer.hpp 26-31, 45-55, 57-73 (operator[] unchecked), 75-79 (at throws), 88-92, gsMaterialMatrixContainer.h 70 *)
Definition cnew (n : nat) : container := repeat None n.
Definition cadd (c : container) (m : M) : container := c ++ [Some m].
Definition cset (c : container) (i : nat) (x : option M) : res container := if (i <? length c)%nat then Val (cupd c i x) else Undef.
Definition cpiece (c : container) (k : nat) : res (option M) := match nth_error c k with Some x => Val x | None => Throws end.
Definition cclear (c : container) : container := [].
Definition csize (c : container) : nat := length c.

(* gsMaterialMatrixContainer.hpp 114-140: size attribute, (index, material) children in document order, groups (material index, patches).
   Simplification: indices are read as natural numbers (a negative number would be out of range as well). *)
Fixpoint inventory (v : container) (ms : list (nat * option M)) : res container :=
  match ms with
  | [] => Val v
  | (i, m) :: r => rbind (cset v i m) (fun v' => inventory v' r)
  end.
Fixpoint assign_group (mat : container) (mi : nat) (ps : list nat) (o : container) : res container :=
  match ps with
  | [] => Val o
  | p :: r => match nth_error mat mi with
              | None => Undef
              | Some x => rbind (cset o p x) (fun o' => assign_group mat mi r o')
              end
  end.
Fixpoint assign_groups (mat : container) (gs : list (nat * list nat)) (o : container) : res container :=
  match gs with
  | [] => Val o
  | (mi, ps) :: r => rbind (assign_group mat mi ps o) (fun o' => assign_groups mat r o')
  end.
Definition cread (size : nat) (ms : list (nat * option M)) (gs : list (nat * list nat)) : res container :=
  rbind (inventory (cnew (length ms)) ms) (fun mat => assign_groups mat gs (cnew size)).

(* a sequence of calls on a container *)
Inductive cop := CAdd (m : M) | CSet (i : nat) (x : option M) | CClear.
Definition cstep (o : cop) (c : container) : res container :=
  match o with CAdd m => Val (cadd c m) | CSet i x => cset c i x | CClear => Val (cclear c) end.
Fixpoint crun (os : list cop) (c : container) : res container :=
  match os with [] => Val c | o :: r => rbind (cstep o c) (fun c' => crun r c') end.
End Container.
Arguments cop M : clear implicits.
Arguments container M : clear implicits.
