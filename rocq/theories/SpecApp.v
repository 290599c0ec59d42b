(** Specifications: the simulator application (C63). *)
From Coq Require Import List Arith ZArith Bool String Ascii Reals.
From Verif Require Import Scalar Instances Base Spatial Joint Body Kin Ops Discrete Json App Specs SpecCache SpecDyn SpecReal SpecDiscrete.
Import ListNotations.

Section SpecApp.
Context {S : Scal}.
Local Open Scope string_scope.

(** The web page sent an object with value [v] at key [k]. *)
Definition shows (i : val) (k : string) (v : val) : Prop := exists l, i = VObj l /\ assoc k l = Some v.
(** It tells that the user holds the point [point] of link [link] of the robot and has
    the mouse at [mouse]. *)
Record drags (i : val) (ab : body) (link : Z) (point mouse : v3) : Prop := {
  dg_robot : shows i "key_object" (VStr ("spatial_dyn::model::" ++ ab_name ab));
  dg_link : shows i "idx_link" (VInt link);
  dg_mouse : shows i "pos_mouse_in_world" (enc_v3 mouse);
  dg_point : shows i "pos_click_in_link" (enc_v3 point)
}.
(** It tells that the user holds something else, or nothing. *)
Definition elsewhere (i : val) (ab : body) : Prop :=
  exists key, shows i "key_object" (VStr key) /\ key <> "spatial_dyn::model::" ++ ab_name ab.
(** The key that is down, if any, begins with [c]. *)
Definition pressed (c : ascii) (i : val) : bool :=
  match i with
  | VObj l => match assoc "key_down" l with Some (VStr (String c' _)) => Ascii.eqb c c' | _ => false end
  | _ => false
  end.
(** It tells which key is down. *)
Definition tells_key (i : val) : Prop := exists key, shows i "key_down" (VStr key).
(** How many of the iterations had such a key down. *)
Definition times_pressed (c : ascii) (ts : list tick) : nat :=
  List.length (filter (fun t => match t_web t with Some i => pressed c i | None => false end) ts).
(** Redis has all the values, the robot is not touched, and no key that moves the goal is
    down. *)
Definition undisturbed (ab : body) (t : tick) : Prop :=
  t_pos t <> None /\ t_ori t <> None /\ t_joint t <> None /\
  exists i, t_web t = Some i /\ elsewhere i ab /\ tells_key i /\
    forall c, In c ["a"; "d"; "w"; "s"; "e"; "q"]%char -> pressed c i = false.

(** The steps of discrete integration an application run made. *)
Definition legs_of (fs : list App.frame) : list leg :=
  map (fun f => Leg [] (f_tau f) (f_fe f) true (klit 1 100000000) 100) fs.
End SpecApp.

Local Open Scope R_scope.
(** The point [x], moved by a tenth of a millimetre for each iteration in which a key was
    down: d and a along the x axis, w and s along y, e and q along z. *)
Definition keyed (x : @v3 RScal) (ts : list (@tick RScal)) : @v3 RScal :=
  let n c := INR (times_pressed c ts) in
  @V3 RScal (vx x + (n "d"%char - n "a"%char) / 10000)%R (vy x + (n "w"%char - n "s"%char) / 10000)%R (vz x + (n "e"%char - n "q"%char) / 10000)%R.
(** Half the stiffness, times the square of the distance from [p] to the mouse. *)
Definition stretch (mouse p : @v3 RScal) : R := 50 * ((vx mouse - vx p) ^ 2 + (vy mouse - vy p) ^ 2 + (vz mouse - vz p) ^ 2).
