(** Coordinate-wise proofs of spatial algebra identities. *)
From Coq Require Import Ring Field.
From Verif Require Import Scalar Spatial.
Ltac cases := repeat match goal with
  | x : v3 |- _ => destruct x
  | x : m3 |- _ => destruct x
  | x : iso |- _ => destruct x
  | x : motion |- _ => destruct x
  | x : force |- _ => destruct x
  | x : inertia |- _ => destruct x
  | x : i6 |- _ => destruct x
  end.
Ltac vunf := cbv [v3zero v3add v3sub v3opp v3scale v3div v3dot v3cross m3zero m3id m3add m3sub
  m3scale m3tr m3mulv m3mul m3outer m3rowcross m3colcross iso_id iso_mul iso_inv iso_app
  mzero madd msub mopp mscale fzero fadd fsub fopp fscale mact fact mact_tra fact_tra mdot
  mcross fcross inertia_flat I_com_flat iact iact_tra imul double_cross iadd i6add i6sub
  i6_of i6mul i6outer i6act
  vx vy vz r0 r1 r2 rot tra mlin mang flin fang imass icom iI b11 b12 b21 b22].
Ltac ext := repeat match goal with
  | |- V3 _ _ _ = V3 _ _ _ => refine (f_equal3 V3 _ _ _)
  | |- M3 _ _ _ = M3 _ _ _ => refine (f_equal3 M3 _ _ _)
  | |- Iso _ _ = Iso _ _ => refine (f_equal2 Iso _ _)
  | |- Mot _ _ = Mot _ _ => refine (f_equal2 Mot _ _)
  | |- Frc _ _ = Frc _ _ => refine (f_equal2 Frc _ _)
  | |- Inr _ _ _ = Inr _ _ _ => refine (f_equal3 Inr _ _ _)
  | |- I6 _ _ _ _ = I6 _ _ _ _ => refine (f_equal4 I6 _ _ _ _)
  end.
Ltac vring := intros; cases; vunf; ext; ring.
