(** Specification: attributes of links as Python sees them (C55). *)
From Coq Require Import List Arith ZArith Bool String.
From Verif Require Import Scalar Base Spatial Joint Body PyEdit.
Import ListNotations.

Section SpecAttr.
Context {S : Scal}.
(** What can be read of a link, and the values that come out. *)
Inductive attribute := AtName | AtGraphics | AtId | AtParent | AtFrame | AtMass | AtCom | AtIcom | AtType | AtAxis
| AtQmin | AtQmax | AtDqmax | AtFqmax | AtCoulomb | AtViscous | AtStiction.
Inductive value := VString (s : string) | VGraphics (gs : list graphics) | VIndex (i : Z) | VPose (T : iso) | VNumber (x : K) | VVector (x : v3)
| VMatrix (M : m3) | VType (t : jtype) | VAxis (m : motion) | VBound (b : bound).
Definition attr (a : attribute) (rb : rigid_body) : value :=
  match a with
  | AtName => VString (rb_name rb) | AtGraphics => VGraphics (rb_graphics rb) | AtId => VIndex (rb_id rb) | AtParent => VIndex (rb_parent rb)
  | AtFrame => VPose (rb_T rb) | AtMass => VNumber (imass (rb_inertia rb)) | AtCom => VVector (icom (rb_inertia rb)) | AtIcom => VMatrix (iI (rb_inertia rb))
  | AtType => VType (jtyp (rb_joint rb)) | AtAxis => VAxis (jsub (rb_joint rb))
  | AtQmin => VBound (jqmin (rb_joint rb)) | AtQmax => VBound (jqmax (rb_joint rb)) | AtDqmax => VBound (jdqmax (rb_joint rb)) | AtFqmax => VBound (jfqmax (rb_joint rb))
  | AtCoulomb => VNumber (jcoulomb (rb_joint rb)) | AtViscous => VNumber (jviscous (rb_joint rb)) | AtStiction => VNumber (jstiction (rb_joint rb))
  end.
(** What an assignment assigns: one attribute, the three of an inertia, the nine of a
    joint, the type of a joint and the axis that goes with it, both limits. *)
Definition assigned (e : link_edit) : list (attribute * value) :=
  match e with
  | EName s => [(AtName, VString s)] | EGraphics gs => [(AtGraphics, VGraphics gs)] | EFrame T => [(AtFrame, VPose T)]
  | EInertia J => [(AtMass, VNumber (imass J)); (AtCom, VVector (icom J)); (AtIcom, VMatrix (iI J))]
  | EMass m => [(AtMass, VNumber m)] | ECom c => [(AtCom, VVector c)] | EIcom M => [(AtIcom, VMatrix M)]
  | EJoint j => [(AtType, VType (jtyp j)); (AtAxis, VAxis (jsub j)); (AtQmin, VBound (jqmin j)); (AtQmax, VBound (jqmax j)); (AtDqmax, VBound (jdqmax j));
                 (AtFqmax, VBound (jfqmax j)); (AtCoulomb, VNumber (jcoulomb j)); (AtViscous, VNumber (jviscous j)); (AtStiction, VNumber (jstiction j))]
  | EType s => match jtype_of_string (token s) with Ok t => [(AtType, VType t); (AtAxis, VAxis (subspace_of t))] | _ => [] end
  | EQmin x => [(AtQmin, VBound x)] | EQmax x => [(AtQmax, VBound x)] | ELimits x y => [(AtQmin, VBound x); (AtQmax, VBound y)]
  | EDqmax x => [(AtDqmax, VBound x)] | EFqmax x => [(AtFqmax, VBound x)]
  | ECoulomb x => [(AtCoulomb, VNumber x)] | EViscous x => [(AtViscous, VNumber x)] | EStiction x => [(AtStiction, VNumber x)]
  end.
(** Assignments that are refused: a negative mass of a whole inertia (but not of its mass
    attribute), an unknown type, limits the wrong way round, negative bounds and
    coefficients. *)
Definition refused (e : link_edit) (rb : rigid_body) : bool :=
  match e with
  | EInertia J => klt (imass J) k0
  | EType s => match jtype_of_string (token s) with Ok _ => false | _ => true end
  | EQmin x => blt (jqmax (rb_joint rb)) x | EQmax x => blt x (jqmin (rb_joint rb)) | ELimits x y => blt y x
  | EDqmax x | EFqmax x => blt x (Fin k0)
  | ECoulomb x | EViscous x | EStiction x => klt x k0
  | _ => false
  end.
Definition link (k : nat) (ab : body) : rigid_body := nth k (ab_rbs ab) rb_default.
End SpecAttr.
