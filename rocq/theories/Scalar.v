(** Scalars.  The C++ code computes with [double]; the model is parametric in
    the scalar operations, so that statements needing no arithmetic law hold for
    IEEE doubles as they are, and algebraic statements can be instantiated with
    the reals or with exact rationals. *)
From Coq Require Import ZArith Field.

(** The operations on [double] used by the code.  [klt] is C++ [<], [keq] is
    C++ [==], [klit n d] is the literal n/d, [ktrunc] is the conversion to [int]
    (truncation; out-of-range conversions are not represented). [kinv] is not used by the model,
    only by the field laws.  (Every file of /repo/src/algorithms and /repo/src/structs; e.g.
    [<] at joint.cc:63, [==] at articulated_body.cc:98, [sin] and [cos] inside Eigen's
    AngleAxis at joint.cc:130.) *)
Class Scal := {
  K : Type;
  k0 : K; k1 : K;
  kadd : K -> K -> K;
  kmul : K -> K -> K;
  ksub : K -> K -> K;
  kdiv : K -> K -> K;
  kopp : K -> K;
  kinv : K -> K;
  ksin : K -> K;
  kcos : K -> K;
  ksqrt : K -> K;
  kabs : K -> K;
  klt : K -> K -> bool;
  keq : K -> K -> bool;
  klit : Z -> positive -> K;
  ktrunc : K -> Z
}.

Declare Scope k_scope.
Delimit Scope k_scope with k.
Bind Scope k_scope with K.
Notation "0" := k0 : k_scope.
Notation "1" := k1 : k_scope.
Infix "+" := kadd : k_scope.
Infix "*" := kmul : k_scope.
Infix "-" := ksub : k_scope.
Infix "/" := kdiv : k_scope.
Notation "- x" := (kopp x) : k_scope.

(** No counterpart in the code.  Exact arithmetic: a field with a circle parametrised by [kcos], [ksin]. *)
Class ScalLaws (S : Scal) : Prop := {
  kfield : field_theory k0 k1 kadd kmul ksub kopp kdiv kinv (@eq K);
  ktrig : forall x : K, kadd (kmul (kcos x) (kcos x)) (kmul (ksin x) (ksin x)) = k1;
  kcos0 : kcos k0 = k1;
  ksin0 : ksin k0 = k0
}.

(** [==] only relates equal scalars (true of exact arithmetic; doubles identify
    +0 and -0). *)
Class EqSound (S : Scal) : Prop := {
  keq_sound : forall x y : K, keq x y = true -> x = y
}.

(** Strict order compatible with addition: what is needed to know that sums of
    positive masses do not vanish. *)
Class PosLaws (S : Scal) : Prop := {
  kpos_add : forall x y : K, klt k0 x = true -> klt k0 y = true -> klt k0 (kadd x y) = true;
  kpos_neq : forall x : K, klt k0 x = true -> x <> k0
}.

(** [std::min(a,b)] returns [(b < a) ? b : a] (inverse_dynamics.cc:212,
    forward_dynamics.cc:104). *)
Definition kmin {S : Scal} (a b : K) : K := if klt b a then b else a.

(** [ctrl_utils::Signum(x, eps)], external; assumed [(eps < x) - (x < -eps)]
    (inverse_dynamics.cc:206, 214; forward_dynamics.cc:100, 105). *)
Definition signum {S : Scal} (x eps : K) : K :=
  ksub (if klt eps x then k1 else k0) (if klt x (kopp eps) then k1 else k0).
