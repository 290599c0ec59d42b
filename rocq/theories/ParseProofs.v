(** Lemmas for C32 and C33. *)
From Coq Require Import List Arith ZArith Bool String Lia.
From Verif Require Import Scalar Base Spatial SpecGeo Joint Body Ops Specs Json SpecParse JointProofs TreeProofs.
Import ListNotations.

Section ParseProofs.
Context {S : Scal}.
Local Open Scope k_scope.
Variable enc_iso : iso -> @val S.
Variable dec_iso : @val S -> res (@iso S).
Variable near : @iso S -> @iso S.

(** [f] is applied to a value between encoding and decoding: nothing in memory, [nulled]
    through text. *)
Variable f : @val S -> @val S.
Variable P : K -> Prop.
Hypothesis f_num : forall k, P k -> f (VNum (Fin k)) = VNum (Fin k).
Hypothesis f_int : forall z, f (VInt z) = VInt z.
Hypothesis f_str : forall s, f (VStr s) = VStr s.
Hypothesis f_arr : forall l, f (VArr l) = VArr (map f l).
Hypothesis f_obj : forall l, f (VObj l) = VObj (map (fun kv => (fst kv, f (snd kv))) l).

Definition any_string (s : string) : Prop := True.

Definition shown (g : graphics) : graphics := Gfx (gname g) (near (gT g)) (relevant (ggeo g)) (gmat g).

Lemma get_all_map {A B} (get : @val S -> res A) (enc : B -> @val S) (g : B -> A) l :
  Forall (fun b => get (enc b) = Ok (g b)) l -> get_all get (map enc l) = Ok (map g l).
Proof. induction 1 as [| b l H _ IH]; cbn; [reflexivity |]. rewrite H, IH. reflexivity. Qed.

Lemma dec_list_ok n l : List.length l = n -> Forall P l -> dec_list n (f (enc_list l)) = Ok l.
Proof.
  intros E H. unfold enc_list, dec_list. rewrite f_arr, map_map, map_length, E, Nat.eqb_refl.
  rewrite (get_all_map get_k (fun x => f (VNum (Fin x))) (fun x => x)).
  - now rewrite map_id.
  - eapply Forall_impl; [| exact H]. intros k Hk. cbv beta. rewrite f_num by exact Hk. reflexivity.
Qed.

Lemma dec_v3_ok x : v3_in P x -> dec_v3 (f (enc_v3 x)) = Ok x.
Proof.
  intros [A [B C]]. unfold dec_v3, enc_v3. rewrite dec_list_ok.
  - destruct x; reflexivity.
  - reflexivity.
  - repeat constructor; assumption.
Qed.

Lemma dec_gtype_ok t : dec_gtype (f (enc_gtype t)) = Ok t.
Proof. unfold dec_gtype, enc_gtype. rewrite f_str. cbn. apply gtype_roundtrip. Qed.
Lemma dec_jtype_ok t : dec_jtype (f (enc_jtype t)) = Ok t.
Proof. unfold dec_jtype, enc_jtype. rewrite f_str. cbn. apply jtype_roundtrip. Qed.

Lemma get_k_ok k : P k -> get_k (f (VNum (Fin k))) = Ok k.
Proof. intros H. rewrite f_num by exact H. reflexivity. Qed.
Lemma get_str_ok s : get_str (f (VStr s)) = Ok s.
Proof. now rewrite f_str. Qed.
Lemma get_int_ok s : get_int (f (VInt s)) = Ok s.
Proof. now rewrite f_int. Qed.

Lemma req_ok {A B} y l k (get : @val S -> res A) (set : A -> B -> res B) b v a :
  assoc k l = Some v -> get (f v) = Ok a -> req_field y (f (VObj l)) k get set b = set a b.
Proof.
  intros E G. unfold req_field. rewrite f_obj. cbn [lookup bind].
  replace (assoc k (map (fun kv => (fst kv, f (snd kv))) l)) with (Some (f v)).
  - rewrite G. reflexivity.
  - revert E. induction l as [| [k' w] l IH]; cbn; [discriminate |].
    destruct (String.eqb k k'); [congruence | exact IH].
Qed.
Lemma opt_ok {A B} y l k (get : @val S -> res A) (set : A -> B -> res B) b v a :
  assoc k l = Some v -> get (f v) = Ok a -> opt_field y (f (VObj l)) k get set b = set a b.
Proof.
  intros E G. rewrite <- (req_ok y l k get set b v a E G). unfold req_field, opt_field.
  rewrite f_obj. cbn [lookup bind].
  replace (assoc k (map (fun kv => (fst kv, f (snd kv))) l)) with (Some (f v)); [reflexivity |].
  revert E. induction l as [| [k' w] l IH]; cbn; [discriminate |].
  destruct (String.eqb k k'); [congruence | exact IH].
Qed.

Ltac field_step lem :=
  match goal with
  | |- context [req_field ?y (f (VObj ?l)) ?k ?get ?set ?b] =>
      erewrite (req_ok y l k get set b); [| reflexivity | exact lem]
  | |- context [opt_field ?y (f (VObj ?l)) ?k ?get ?set ?b] =>
      erewrite (opt_ok y l k get set b); [| reflexivity | exact lem]
  end; cbn [bind].

Lemma dec_geo_ok y g : v3_in P (gscale g) -> P (gradius g) -> P (glength g) ->
  dec_geo y (f (enc_geo g)) = Ok (relevant g).
Proof.
  intros A B C. unfold dec_geo, enc_geo.
  field_step (dec_gtype_ok (gty g)).
  unfold geo_ty, geo_default, assign, bind. cbn [gty].
  destruct g as [t s r l m]; cbn [gty gscale gradius glength gmesh] in *.
  destruct t; unfold relevant; cbn [gty gscale gradius glength gmesh].
  - reflexivity.
  - field_step (dec_v3_ok s A). reflexivity.
  - field_step (get_k_ok r B). field_step (get_k_ok l C). reflexivity.
  - field_step (get_k_ok r B). field_step (get_k_ok l C). reflexivity.
  - field_step (get_k_ok r B). reflexivity.
  - field_step (dec_v3_ok s A). field_step (get_str_ok m). reflexivity.
Qed.

Lemma dec_mat_ok y m : v3_in P (mrgb m) -> P (malpha m) -> dec_mat y (f (enc_mat m)) = Ok m.
Proof.
  intros A B. unfold dec_mat, enc_mat.
  field_step (get_str_ok (mname m)).
  assert (L : dec_list 4 (f (enc_list [vx (mrgb m); vy (mrgb m); vz (mrgb m); malpha m])) =
              Ok [vx (mrgb m); vy (mrgb m); vz (mrgb m); malpha m]).
  { apply dec_list_ok; [reflexivity |]. destruct A as [? [? ?]]. repeat constructor; assumption. }
  unfold assign at 1. cbn [bind].
  field_step L. unfold assign at 1. cbn [bind].
  field_step (get_str_ok (mtexture m)). destruct m as [? [? ? ?] ? ?]; reflexivity.
Qed.

Lemma dec_gfx_ok y g : picture_in P any_string g -> dec_iso (f (enc_iso (gT g))) = Ok (near (gT g)) ->
  dec_gfx dec_iso y (f (enc_gfx enc_iso g)) = Ok (shown g).
Proof.
  intros [_ [_ [_ [_ [A [B [C [D E]]]]]]]] T. unfold dec_gfx, enc_gfx.
  field_step (get_str_ok (gname g)). unfold assign at 1; cbn [bind].
  field_step T. unfold assign at 1; cbn [bind].
  field_step (dec_geo_ok y (ggeo g) C D E). unfold assign at 1; cbn [bind].
  field_step (dec_mat_ok y (gmat g) A B). reflexivity.
Qed.

Lemma dec_gfxs_ok y gs : Forall (picture_in P any_string) gs ->
  Forall (fun T => dec_iso (f (enc_iso T)) = Ok (near T)) (map gT gs) ->
  get_vector (dec_gfx dec_iso y) (f (VArr (map (enc_gfx enc_iso) gs))) = Ok (map shown gs).
Proof.
  intros A B. rewrite f_arr. cbn [get_vector]. rewrite map_map. apply get_all_map.
  rewrite Forall_forall in A, B |- *. intros g Hg. apply dec_gfx_ok; auto.
  apply B. now apply in_map.
Qed.

Lemma dec_inertia_ok y J : inertia_in P J -> isym J -> dec_inertia y (f (enc_inertia J)) = Ok J.
Proof.
  intros [A [B [C [D E]]]] Hs. unfold enc_inertia, dec_inertia, I_com_flat.
  field_step (get_k_ok (imass J) A).
  field_step (dec_v3_ok (icom J) B).
  set (l := [vx (r0 (iI J)); vy (r1 (iI J)); vz (r2 (iI J)); vy (r0 (iI J)); vz (r0 (iI J)); vz (r1 (iI J))]).
  assert (L : dec_list 6 (f (enc_list l)) = Ok l).
  { apply dec_list_ok; [reflexivity |]. unfold l.
    destruct C as [? [? ?]], D as [? [? ?]], E as [? [? ?]]. repeat constructor; assumption. }
  field_step L. unfold l, inertia_flat. f_equal.
  destruct J as [m c [[a b d] [e g h] [i j k]]].
  unfold isym, m3sym in Hs. cbn in *. injection Hs. intros. subst. reflexivity.
Qed.

Lemma double_ok y l k (set : bound -> joint -> mres joint unit) (j : joint) b :
  assoc k l = Some (VNum b) -> bound_in P b \/ f (VNum b) = VNum b ->
  opt_field y (f (VObj l)) k get_double (through_setter set) j = called (set b j).
Proof.
  intros E H. rewrite (opt_ok y l k get_double (through_setter set) j (VNum b) b E); [reflexivity |].
  destruct H as [H | H]; [| rewrite H; reflexivity]. destruct b; try contradiction. cbn in H.
  rewrite f_num by exact H. reflexivity.
Qed.

Definition limits_kept (j : joint) : Prop :=
  Forall (fun b => f (VNum b) = VNum b) [jqmin j; jqmax j; jdqmax j; jfqmax j].

(** What decoding an encoded joint does. *)
Lemma dec_joint_run y j : limits_kept j -> P (jcoulomb j) -> P (jviscous j) -> P (jstiction j) ->
  dec_joint y (f (enc_joint j)) =
  bind (called (set_q_min (jqmin j) (set_type (jtyp j) joint_default))) (fun x =>
  bind (called (set_q_max (jqmax j) x)) (fun x => bind (called (set_dq_max (jdqmax j) x)) (fun x =>
  bind (called (set_fq_max (jfqmax j) x)) (fun x => bind (called (set_f_coulomb (jcoulomb j) x)) (fun x =>
  bind (called (set_f_viscous (jviscous j) x)) (fun x => called (set_f_stiction (jstiction j) x))))))).
Proof.
  intros L A B C. unfold dec_joint, enc_joint.
  inversion L as [| ? ? L1 T1 E1]; subst. inversion T1 as [| ? ? L2 T2 E2]; subst.
  inversion T2 as [| ? ? L3 T3 E3]; subst. inversion T3 as [| ? ? L4 T4 E4]; subst.
  field_step (dec_jtype_ok (jtyp j)). unfold assign at 1; cbn [bind].
  erewrite (double_ok y _ "q_min" set_q_min _ (jqmin j)); [| reflexivity | exact (or_intror L1)].
  destruct (called (set_q_min _ _)) as [x1 | |]; [| reflexivity | reflexivity]. cbn [bind].
  erewrite (double_ok y _ "q_max" set_q_max _ (jqmax j)); [| reflexivity | exact (or_intror L2)].
  destruct (called (set_q_max _ _)) as [x2 | |]; [| reflexivity | reflexivity]. cbn [bind].
  erewrite (double_ok y _ "dq_max" set_dq_max _ (jdqmax j)); [| reflexivity | exact (or_intror L3)].
  destruct (called (set_dq_max _ _)) as [x3 | |]; [| reflexivity | reflexivity]. cbn [bind].
  erewrite (double_ok y _ "fq_max" set_fq_max _ (jfqmax j)); [| reflexivity | exact (or_intror L4)].
  destruct (called (set_fq_max _ _)) as [x4 | |]; [| reflexivity | reflexivity]. cbn [bind].
  field_step (get_k_ok (jcoulomb j) A). unfold through_setter at 1.
  destruct (called (set_f_coulomb _ _)) as [x5 | |]; [| reflexivity | reflexivity]. cbn [bind].
  field_step (get_k_ok (jviscous j) B). unfold through_setter at 1.
  destruct (called (set_f_viscous _ _)) as [x6 | |]; [| reflexivity | reflexivity]. cbn [bind].
  field_step (get_k_ok (jstiction j) C). reflexivity.
Qed.

Lemma on_q_min v t s a b c d x y z : called (set_q_min v (Jnt t s a b c d x y z)) =
  if blt b v then Throw else Ok (Jnt t s v b c d x y z).
Proof. unfold set_q_min. cbn [jqmax]. now destruct (blt b v). Qed.
Lemma on_q_max v t s a b c d x y z : called (set_q_max v (Jnt t s a b c d x y z)) =
  if blt v a then Throw else Ok (Jnt t s a v c d x y z).
Proof. unfold set_q_max. cbn [jqmin]. now destruct (blt v a). Qed.
Lemma on_dq_max v t s a b c d x y z : called (set_dq_max v (Jnt t s a b c d x y z)) =
  if blt v (Fin 0) then Throw else Ok (Jnt t s a b v d x y z).
Proof. unfold set_dq_max. now destruct (blt v (Fin 0)). Qed.
Lemma on_fq_max v t s a b c d x y z : called (set_fq_max v (Jnt t s a b c d x y z)) =
  if blt v (Fin 0) then Throw else Ok (Jnt t s a b c v x y z).
Proof. unfold set_fq_max. now destruct (blt v (Fin 0)). Qed.
Lemma on_coulomb v t s a b c d x y z : called (set_f_coulomb v (Jnt t s a b c d x y z)) =
  if klt v 0 then Throw else Ok (Jnt t s a b c d v y z).
Proof. unfold set_f_coulomb. now destruct (klt v 0). Qed.
Lemma on_viscous v t s a b c d x y z : called (set_f_viscous v (Jnt t s a b c d x y z)) =
  if klt v 0 then Throw else Ok (Jnt t s a b c d x v z).
Proof. unfold set_f_viscous. now destruct (klt v 0). Qed.
Lemma on_stiction v t s a b c d x y z : called (set_f_stiction v (Jnt t s a b c d x y z)) =
  if klt v 0 then Throw else Ok (Jnt t s a b c d x y v).
Proof. unfold set_f_stiction. now destruct (klt v 0). Qed.

Lemma setters_ok j :
  bind (called (set_q_min (jqmin j) (set_type (jtyp j) joint_default))) (fun x =>
  bind (called (set_q_max (jqmax j) x)) (fun x => bind (called (set_dq_max (jdqmax j) x)) (fun x =>
  bind (called (set_fq_max (jfqmax j) x)) (fun x => bind (called (set_f_coulomb (jcoulomb j) x)) (fun x =>
  bind (called (set_f_viscous (jviscous j) x)) (fun x => called (set_f_stiction (jstiction j) x))))))) =
  if blt (jqmax j) (jqmin j) || blt (jdqmax j) (Fin 0) || blt (jfqmax j) (Fin 0) || klt (jcoulomb j) 0 ||
     klt (jviscous j) 0 || klt (jstiction j) 0
  then Throw
  else Ok (Jnt (jtyp j) (subspace_of (jtyp j)) (jqmin j) (jqmax j) (jdqmax j) (jfqmax j)
               (jcoulomb j) (jviscous j) (jstiction j)).
Proof.
  destruct j as [t s a b c d x y z]. cbn [jtyp jsub jqmin jqmax jdqmax jfqmax jcoulomb jviscous jstiction].
  unfold set_type, joint_default. cbn [jqmin jqmax jdqmax jfqmax jcoulomb jviscous jstiction].
  rewrite on_q_min. cbn [blt bind].
  rewrite on_q_max. destruct (blt b a); [reflexivity |]. cbn [bind].
  rewrite on_dq_max. destruct (blt c (Fin 0)); [reflexivity |]. cbn [bind].
  rewrite on_fq_max. destruct (blt d (Fin 0)); [reflexivity |]. cbn [bind].
  rewrite on_coulomb. destruct (klt x 0); [reflexivity |]. cbn [bind].
  rewrite on_viscous. destruct (klt y 0); [reflexivity |]. cbn [bind].
  rewrite on_stiction. destruct (klt z 0); reflexivity.
Qed.

Lemma joint_iff j (r : res joint) : r = (if blt (jqmax j) (jqmin j) || blt (jdqmax j) (Fin 0) || blt (jfqmax j) (Fin 0) || klt (jcoulomb j) 0 ||
     klt (jviscous j) 0 || klt (jstiction j) 0
  then Throw
  else Ok (Jnt (jtyp j) (subspace_of (jtyp j)) (jqmin j) (jqmax j) (jdqmax j) (jfqmax j)
               (jcoulomb j) (jviscous j) (jstiction j))) ->
  (r = Ok j <-> joint_ok j) /\ (r = Throw \/ exists j', r = Ok j' /\ joint_ok j').
Proof.
  intros ->. destruct (_ || _) eqn:E; split.
  - split; [discriminate |]. intros [A B C D F G _]. rewrite A, B, C, D, F, G in E. discriminate.
  - now left.
  - rewrite !orb_false_iff in E. split.
    + intros H. injection H as H. constructor; try tauto. rewrite <- H at 1. reflexivity.
    + intros H. f_equal. rewrite <- (jo_axis _ H). destruct j; reflexivity.
  - right. eexists. split; [reflexivity |]. rewrite !orb_false_iff in E.
    constructor; cbn; tauto.
Qed.

Lemma dec_joint_ok y j : limits_kept j -> P (jcoulomb j) -> P (jviscous j) -> P (jstiction j) -> joint_ok j ->
  dec_joint y (f (enc_joint j)) = Ok j.
Proof.
  intros L A B C H. rewrite dec_joint_run by assumption.
  apply (joint_iff j). - apply setters_ok. - exact H.
Qed.

Definition read_link (r : rigid_body) : rigid_body :=
  Rb (rb_name r) (map shown (rb_graphics r)) (rb_id r) (rb_parent r) (near (rb_T r)) (rb_inertia r) (rb_joint r).
Definition yaml_link (r : rigid_body) : rigid_body :=
  Rb (rb_name r) (map shown (rb_graphics r)) (-1)%Z (-1)%Z (near (rb_T r)) (rb_inertia r) (rb_joint r).

Definition link_fine (r : rigid_body) : Prop :=
  link_in P any_string r /\ inertia_ok (rb_inertia r) /\
  Forall (fun T => dec_iso (f (enc_iso T)) = Ok (near T)) (rb_T r :: map gT (rb_graphics r)).

(** Everything up to the joint. *)
Lemma json_rb_run r : link_fine r ->
  json_dec_rb dec_iso (f (enc_rb enc_iso r)) =
  opt_field false (f (enc_rb enc_iso r)) "joint" (dec_joint false) (assign rb_with_joint)
    (Rb (rb_name r) (map shown (rb_graphics r)) (rb_id r) (rb_parent r) (near (rb_T r)) (rb_inertia r) joint_default).
Proof.
  intros [[_ [Hg [Hi _]]] [[Hm Hs] HT]]. inversion HT as [| ? ? T1 T2]; subst.
  unfold json_dec_rb, enc_rb.
  field_step (get_str_ok (rb_name r)). unfold assign at 1; cbn [bind].
  field_step (dec_gfxs_ok false _ Hg T2). unfold assign at 1; cbn [bind].
  field_step (get_int_ok (rb_id r)). unfold assign at 1; cbn [bind].
  field_step (get_int_ok (rb_parent r)). unfold assign at 1; cbn [bind].
  field_step T1. unfold assign at 1; cbn [bind].
  field_step (dec_inertia_ok false _ Hi Hs). unfold through_setter at 1. unfold rb_set_inertia at 1. rewrite Hm.
  cbn [called bind]. reflexivity.
Qed.
Lemma yaml_rb_run r : link_fine r ->
  yaml_dec_rb dec_iso (f (enc_rb enc_iso r)) =
  opt_field true (f (enc_rb enc_iso r)) "joint" (dec_joint true) (assign rb_with_joint)
    (Rb (rb_name r) (map shown (rb_graphics r)) (-1)%Z (-1)%Z (near (rb_T r)) (rb_inertia r) joint_default).
Proof.
  intros [[_ [Hg [Hi _]]] [[Hm Hs] HT]]. inversion HT as [| ? ? T1 T2]; subst.
  unfold yaml_dec_rb, enc_rb.
  field_step (get_str_ok (rb_name r)). unfold assign at 1; cbn [bind].
  field_step (dec_gfxs_ok true _ Hg T2). unfold assign at 1; cbn [bind].
  field_step T1. unfold assign at 1; cbn [bind].
  field_step (dec_inertia_ok true _ Hi Hs). unfold through_setter at 1. unfold rb_set_inertia at 1. rewrite Hm.
  cbn [called bind]. reflexivity.
Qed.

Lemma json_rb_ok r : link_fine r -> limits_kept (rb_joint r) -> joint_ok (rb_joint r) ->
  json_dec_rb dec_iso (f (enc_rb enc_iso r)) = Ok (read_link r).
Proof.
  intros H L J. rewrite json_rb_run by exact H. destruct H as [[_ [_ [_ [A [B C]]]]] _].
  unfold enc_rb. field_step (dec_joint_ok false _ L A B C J). reflexivity.
Qed.
Lemma yaml_rb_ok r : link_fine r -> limits_kept (rb_joint r) -> joint_ok (rb_joint r) ->
  yaml_dec_rb dec_iso (f (enc_rb enc_iso r)) = Ok (yaml_link r).
Proof.
  intros H L J. rewrite yaml_rb_run by exact H. destruct H as [[_ [_ [_ [A [B C]]]]] _].
  unfold enc_rb. field_step (dec_joint_ok true _ L A B C J). reflexivity.
Qed.

(** Adding the links one after the other. *)
Definition renumber (start : nat) (rs : list rigid_body) : list rigid_body :=
  map (fun ir => Rb (rb_name (snd ir)) (rb_graphics (snd ir)) (Z.of_nat (fst ir)) (rb_parent (snd ir))
                    (rb_T (snd ir)) (rb_inertia (snd ir)) (rb_joint (snd ir)))
      (combine (seq start (List.length rs)) rs).

Definition built (ab ab' : body) : Prop :=
  ab_name ab' = ab_name ab /\ ab_graphics ab' = ab_graphics ab /\ ab_Tbase ab' = ab_Tbase ab /\
  ab_Ibase ab' = ab_Ibase ab /\ ab_g ab' = ab_g ab /\ ab_loads ab' = ab_loads ab.

Lemma add_all_ok get (enc : rigid_body -> @val S) (g : rigid_body -> rigid_body) rs : forall ab,
  Forall (fun r => get (enc r) = Ok (g r)) rs ->
  List.length (ab_rbs ab) = ab_dof ab -> ab_q ab = repeat 0 (ab_dof ab) -> ab_dq ab = repeat 0 (ab_dof ab) ->
  (exists c, ab_cache ab = Some c) ->
  (forall i, (i < List.length rs)%nat ->
     (-1 <= rb_parent (g (nth i rs rb_default)) < Z.of_nat (ab_dof ab + i))%Z) ->
  exists ab', add_all get (map enc rs) ab = Ok ab' /\ built ab ab' /\
    ab_rbs ab' = ab_rbs ab ++ renumber (ab_dof ab) (map g rs) /\
    ab_dof ab' = (ab_dof ab + List.length rs)%nat /\
    ab_q ab' = repeat 0 (ab_dof ab') /\ ab_dq ab' = repeat 0 (ab_dof ab') /\
    (tree_ok ab -> tree_ok ab').
Proof.
  induction rs as [| r rs IH]; intros ab Hg Hl Hq Hd Hc Hp.
  - exists ab. cbn. rewrite Nat.add_0_r, app_nil_r. unfold built. tauto.
  - inversion Hg as [| ? ? G1 G2]; subst. cbn [map add_all]. rewrite G1. cbn [bind].
    assert (P0 := Hp 0%nat ltac:(cbn; lia)). cbn [nth] in P0.
    unfold add_rigid_body at 1.
    destruct ((Z.of_nat (List.length (ab_rbs ab)) <=? rb_parent (g r)) || (rb_parent (g r) <? -1))%Z eqn:E.
    { apply orb_true_iff in E. rewrite Z.leb_le, Z.ltb_lt in E. lia. }
    cbn [called bind].
    assert (A : exists x, add_rigid_body (g r) (rb_parent (g r)) ab = Ret x (Z.of_nat (List.length (ab_rbs ab)))).
    { unfold add_rigid_body. rewrite E. eexists. reflexivity. }
    destruct A as [x A].
    assert (Ex := A). unfold add_rigid_body in Ex. rewrite E in Ex. injection Ex as Ex.
    rewrite Ex.
    assert (Gr : forall l, l = repeat 0 (ab_dof ab) -> grow l (List.length (ab_rbs ab)) = repeat 0 (Datatypes.S (ab_dof ab))).
    { intros l ->. unfold grow. rewrite Hl. rewrite firstn_all2 by (rewrite repeat_length; lia).
      symmetry. apply (repeat_cons (ab_dof ab) 0). }
    destruct (IH x) as [ab' [H1 [H2 [H3 [H4 [H5 [H6 H7]]]]]]].
    + exact G2.
    + rewrite <- Ex. cbn. rewrite app_length. cbn. lia.
    + rewrite <- Ex. cbn [expand_dof ab_q ab_dof]. exact (Gr _ Hq).
    + rewrite <- Ex. cbn [expand_dof ab_dq ab_dof]. exact (Gr _ Hd).
    + rewrite <- Ex. cbn. destruct Hc as [c ->]. eauto.
    + intros i Hi. specialize (Hp (Datatypes.S i) ltac:(cbn; lia)). cbn [nth] in Hp.
      rewrite <- Ex. cbn [expand_dof ab_dof]. replace (Datatypes.S (ab_dof ab) + i)%nat with (ab_dof ab + Datatypes.S i)%nat by lia.
      exact Hp.
    + exists ab'. split; [exact H1 |].
      assert (D : ab_dof x = Datatypes.S (ab_dof ab)) by (rewrite <- Ex; reflexivity).
      assert (B : built ab x) by (rewrite <- Ex; unfold built; cbn; tauto).
      split; [unfold built in *; intuition congruence |].
      split.
      { rewrite H3. rewrite D. rewrite <- Ex. cbn [expand_dof ab_rbs]. rewrite <- app_assoc. f_equal.
        unfold renumber. cbn [map List.length seq combine app fst snd]. rewrite Hl. reflexivity. }
      split; [rewrite H4, D; cbn [List.length]; lia |].
      split; [exact H5 |]. split; [exact H6 |].
      intros T. apply H7. eapply tree_add; [exact T | exact A].
Qed.

(** Everything before the links. *)
Definition described (ab : body) (mem : cache) : body :=
  Body (ab_name ab) (map shown (ab_graphics ab)) (Some (all_clear mem)) 0 [] [] []
       (ab_g (body_new EmptyString mem)) (fun _ => None) (near (ab_Tbase ab)) (ab_Ibase ab) [] [].

Definition base_fine (ab : body) : Prop :=
  Forall (picture_in P any_string) (ab_graphics ab) /\ inertia_in P (ab_Ibase ab) /\ inertia_ok (ab_Ibase ab) /\
  Forall (fun T => dec_iso (f (enc_iso T)) = Ok (near T)) (ab_Tbase ab :: map gT (ab_graphics ab)).

Lemma dec_body_run y get ab name mem : base_fine ab ->
  dec_body dec_iso y get (f (enc_body enc_iso ab)) (body_new name mem) =
  add_all get (map (fun r => f (enc_rb enc_iso r)) (ab_rbs ab)) (described ab mem).
Proof.
  intros [Hg [Hi [[Hm Hs] HT]]]. inversion HT as [| ? ? T1 T2]; subst.
  unfold dec_body, enc_body.
  field_step (get_str_ok (ab_name ab)). unfold assign at 1; cbn [bind].
  field_step (dec_gfxs_ok y _ Hg T2). unfold assign at 1; cbn [bind].
  field_step T1. unfold through_setter at 1. unfold set_T_base at 1. cbn [called bind].
  field_step (dec_inertia_ok y _ Hi Hs). unfold through_setter at 1. unfold set_inertia_base at 1. rewrite Hm.
  unfold I_com_flat. cbn [called bind].
  assert (E : Ok (elements y (f (VArr (map (enc_rb enc_iso) (ab_rbs ab))))) =
              Ok (map (fun r => f (enc_rb enc_iso r)) (ab_rbs ab))).
  { rewrite f_arr. cbn [elements]. now rewrite map_map. }
  field_step E. unfold described. f_equal.
  cbn -[body_new]. f_equal.
  unfold inertia_flat. destruct (ab_Ibase ab) as [m c [[a b d] [e g h] [i j k]]].
  unfold isym, m3sym in Hs. cbn in *. injection Hs. intros. subst. reflexivity.
Qed.

Lemma shown_pictures gs : Forall2 (same_picture near) gs (map shown gs).
Proof.
  induction gs as [| g gs IH]; cbn; constructor; [| exact IH]. unfold same_picture, shown. cbn. tauto.
Qed.

Lemma renumber_links (parent : Z -> Z) (g : rigid_body -> rigid_body)
  (Hn : forall r, rb_name (g r) = rb_name r) (Hg : forall r, rb_graphics (g r) = map shown (rb_graphics r))
  (Hp : forall r, rb_parent (g r) = parent (rb_parent r)) (HT : forall r, rb_T (g r) = near (rb_T r))
  (Hi : forall r, rb_inertia (g r) = rb_inertia r) (Hj : forall r, rb_joint (g r) = rb_joint r) rs : forall start,
  (forall i, (i < List.length rs)%nat -> rb_id (nth i rs rb_default) = Z.of_nat (start + i)) ->
  Forall2 (same_link near parent) rs (renumber start (map g rs)).
Proof.
  induction rs as [| r rs IH]; intros start H; cbn; constructor.
  - unfold same_link. cbn. rewrite Hn, Hg, Hp, HT, Hi, Hj.
    specialize (H 0%nat ltac:(cbn; lia)). cbn in H. rewrite Nat.add_0_r in H. rewrite H.
    repeat split; try reflexivity. apply shown_pictures.
  - apply IH. intros i Hlt. specialize (H (Datatypes.S i) ltac:(cbn; lia)). cbn [nth] in H.
    rewrite H. f_equal. lia.
Qed.

Lemma tree_empty ab : ab_dof ab = 0%nat -> ab_rbs ab = [] -> ab_q ab = [] -> ab_dq ab = [] -> ab_anc ab = [] ->
  ab_sub ab = [] -> (exists c, ab_cache ab = Some c) -> tree_ok ab.
Proof.
  intros A B C D E F G. constructor; rewrite ?A, ?B, ?C, ?D, ?E, ?F; try reflexivity; auto; intros; lia.
Qed.

(** Decoding, for either format. *)
Lemma dec_all y get parent g ab name mem : base_fine ab ->
  (forall r, rb_name (g r) = rb_name r) -> (forall r, rb_graphics (g r) = map shown (rb_graphics r)) ->
  (forall r, rb_parent (g r) = parent (rb_parent r)) -> (forall r, rb_T (g r) = near (rb_T r)) ->
  (forall r, rb_inertia (g r) = rb_inertia r) -> (forall r, rb_joint (g r) = rb_joint r) ->
  (forall p i, (-1 <= p < Z.of_nat i)%Z -> (-1 <= parent p < Z.of_nat i)%Z) ->
  Forall (fun r => get (f (enc_rb enc_iso r)) = Ok (g r)) (ab_rbs ab) -> tree_ok ab ->
  exists ab', dec_body dec_iso y get (f (enc_body enc_iso ab)) (body_new name mem) = Ok ab' /\
    redescribed near parent ab ab' /\ ab_Ibase ab' = ab_Ibase ab /\ tree_ok ab'.
Proof.
  intros HB Hn Hg Hp HT Hi Hj Hr HG TR.
  rewrite dec_body_run by exact HB.
  destruct (add_all_ok get (fun r => f (enc_rb enc_iso r)) g (ab_rbs ab) (described ab mem)) as
    [ab' [H1 [[B1 [B2 [B3 [B4 [B5 B6]]]]] [H3 [H4 [H5 [H6 H7]]]]]]]; try reflexivity.
  - exact HG.
  - eexists; reflexivity.
  - intros i Lt. rewrite Hp. cbn [described ab_dof]. apply Hr.
    apply (tk_par _ TR). now rewrite <- (tk_rbs _ TR).
  - exists ab'. split; [exact H1 |]. cbn [described ab_dof Nat.add] in H4. rewrite (tk_rbs _ TR) in H4.
    split; [| split; [exact B4 |]].
    + constructor.
      * exact B1.
      * rewrite B2. apply shown_pictures.
      * exact H4.
      * exact B3.
      * rewrite H3. apply renumber_links; auto.
        intros i Lt. apply (tk_id _ TR). now rewrite <- (tk_rbs _ TR).
      * now rewrite H5, H4.
      * now rewrite H6, H4.
      * rewrite B5. reflexivity.
      * rewrite B6. reflexivity.
    + apply H7. apply tree_empty; try reflexivity. eexists; reflexivity.
Qed.

End ParseProofs.

Section Whole.
Context {S : Scal}.
Local Open Scope k_scope.
Variable near : @iso S -> @iso S.

Lemma same_link_nth parent (rs rs' : list rigid_body) : Forall2 (same_link near parent) rs rs' ->
  forall i, (i < List.length rs)%nat -> same_link near parent (nth i rs rb_default) (nth i rs' rb_default).
Proof.
  induction 1; intros i Lt; cbn in Lt; [lia |]. destruct i; cbn; [assumption |]. apply IHForall2. lia.
Qed.

Lemma list_nth_ext {A} (d : A) (l l' : list A) : List.length l = List.length l' ->
  (forall i, (i < List.length l)%nat -> nth i l d = nth i l' d) -> l = l'.
Proof. intros E H. apply nth_ext with d d; auto. Qed.

(** Parents determine the tree. *)
Lemma unique_tree (a b : body) : tree_ok a -> tree_ok b -> ab_dof b = ab_dof a ->
  (forall i, (i < ab_dof a)%nat -> rb_parent (rb_at b i) = rb_parent (rb_at a i)) -> same_tree a b.
Proof.
  intros TA TB D Hp.
  assert (Hpar : forall i, (i < ab_dof a)%nat -> par b i = par a i).
  { intros i Hi. unfold par. rewrite Hp by exact Hi. reflexivity. }
  assert (HA : forall i, (i < ab_dof a)%nat -> anc_at b i = anc_at a i).
  { induction i as [i IH] using lt_wf_ind. intros Hi.
    rewrite (tk_anc_at _ TB) by lia. rewrite (tk_anc_at _ TA) by lia. rewrite Hpar by lia.
    destruct (par a i) as [p |] eqn:E; [| reflexivity].
    assert (p < i)%nat.
    { unfold par in E. assert (R := tk_par _ TA i Hi). destruct (_ <? 0)%Z eqn:N; inversion E; subst.
      apply Z.ltb_ge in N. lia. }
    rewrite IH by lia. reflexivity. }
  split.
  - apply (list_nth_ext nil); [rewrite (tk_anc _ TA), (tk_anc _ TB); lia |].
    intros i Hi. rewrite (tk_anc _ TB) in Hi. apply HA. lia.
  - apply (list_nth_ext nil); [rewrite (tk_sub _ TA), (tk_sub _ TB); lia |].
    intros i Hi. rewrite (tk_sub _ TB) in Hi.
    change (subt_at b i = subt_at a i). rewrite (tk_sub_at _ TB) by lia. rewrite (tk_sub_at _ TA) by lia.
    rewrite D. apply filter_ext_in. intros k Hk. apply in_seq in Hk. rewrite HA by lia. reflexivity.
Qed.

Variable enc_iso : iso -> @val S.
Variable dec_iso : @val S -> res (@iso S).
Variable solve : list (list K) -> list K -> list K.
Variable pinv : list (list K) -> K -> list (list K) * bool.

Definition anyk (k : K) : Prop := True.
Lemma v3_any x : v3_in anyk x. Proof. repeat split. Qed.
Lemma inertia_any I : inertia_in anyk I. Proof. repeat split. Qed.
Lemma picture_any g : picture_in anyk any_string g. Proof. repeat split. Qed.
Lemma pictures_any gs : Forall (picture_in anyk any_string) gs.
Proof. apply Forall_forall. intros. apply picture_any. Qed.
Lemma link_any r : link_in anyk any_string r.
Proof. repeat split. apply pictures_any. Qed.

Lemma map_id_pair (l : list (string * @val S)) : map (fun kv => (fst kv, snd kv)) l = l.
Proof. induction l as [| [k v] l IH]; cbn; congruence. Qed.

(** Storable robots, as the lemmas above want them. *)
Lemma split_placed (Q : iso -> Prop) (ab : body) : Forall Q (placements ab) ->
  Forall Q (ab_Tbase ab :: map gT (ab_graphics ab)) /\
  Forall (fun r => Forall Q (rb_T r :: map gT (rb_graphics r))) (ab_rbs ab).
Proof.
  unfold placements. intros H. inversion H as [| ? ? H1 H2]; subst. apply Forall_app in H2 as [H2 H3].
  split; [now constructor |]. rewrite Forall_forall in H3 |- *. intros r Hr.
  apply Forall_forall. intros T HT. apply H3. apply in_flat_map. eauto.
Qed.

Section Codec.
Variable f : @val S -> @val S.
Variable P : K -> Prop.
Hypothesis f_num : forall k, P k -> f (VNum (Fin k)) = VNum (Fin k).
Hypothesis f_int : forall z, f (VInt z) = VInt z.
Hypothesis f_str : forall s, f (VStr s) = VStr s.
Hypothesis f_arr : forall l, f (VArr l) = VArr (map f l).
Hypothesis f_obj : forall l, f (VObj l) = VObj (map (fun kv => (fst kv, f (snd kv))) l).

Lemma fine_split ab : robot_in P any_string ab -> storable ab ->
  Forall (fun T => dec_iso (f (enc_iso T)) = Ok (near T)) (placements ab) ->
  base_fine enc_iso dec_iso near f P ab /\ Forall (link_fine enc_iso dec_iso near f P) (ab_rbs ab).
Proof.
  intros [_ [A [B C]]] [D E F] G. apply split_placed in G as [G1 G2]. split.
  - repeat split; assumption || (destruct D; assumption) || apply B.
  - rewrite Forall_forall in C, E, G2 |- *. intros r Hr. split; [auto | split; auto].
Qed.

Lemma json_whole ab g h name mem : reached solve pinv h ab ->
  let ab := ab_with_graphics g ab in robot_in P any_string ab -> storable ab ->
  Forall (fun r => limits_kept f (rb_joint r)) (ab_rbs ab) ->
  Forall (fun T => dec_iso (f (enc_iso T)) = Ok (near T)) (placements ab) ->
  exists ab', from_json dec_iso (f (enc_body enc_iso ab)) (body_new name mem) = Ok ab' /\
    redescribed near (fun p => p) ab ab' /\ ab_Ibase ab' = ab_Ibase ab /\ same_tree ab ab'.
Proof.
  intros R rab IN ST LK CO. subst rab.
  assert (TR : tree_ok (ab_with_graphics g ab)).
  { apply tree_reached in R. destruct R. constructor; assumption. }
  set (b := ab_with_graphics g ab) in *. clearbody b. clear R.
  destruct (fine_split b IN ST CO) as [F1 F2].
  destruct (dec_all enc_iso dec_iso near f P f_num f_str f_arr f_obj false (json_dec_rb dec_iso) (fun p => p) (read_link near)
             b name mem) as [ab' [H1 [H2 [H3 H4]]]]; try reflexivity; auto.
  - assert (SJ := st_joint _ ST). rewrite Forall_forall in F2, LK, SJ |- *. intros r Hr. apply (json_rb_ok _ _ near f P); auto.
  - exists ab'. repeat split; try assumption; apply H2 || idtac.
    1,2: apply (unique_tree b ab' TR H4 (d_dof _ _ _ _ H2)).
    all: intros i Hi; rewrite <- (tk_rbs _ TR) in Hi;
         destruct (same_link_nth _ _ _ (d_links _ _ _ _ H2) i Hi) as [_ [_ [E _]]]; exact E.
Qed.

Lemma yaml_whole ab g h name mem : reached solve pinv h ab ->
  let ab := ab_with_graphics g ab in robot_in P any_string ab -> storable ab ->
  Forall (fun r => limits_kept f (rb_joint r)) (ab_rbs ab) ->
  Forall (fun T => dec_iso (f (enc_iso T)) = Ok (near T)) (placements ab) ->
  exists ab', from_yaml dec_iso (f (enc_body enc_iso ab)) (body_new name mem) = Ok ab' /\
    redescribed near (fun _ => (-1)%Z) ab ab' /\ ab_Ibase ab' = ab_Ibase ab /\
    forall i, (i < ab_dof ab)%nat -> anc_at ab' i = [i] /\ subt_at ab' i = [i].
Proof.
  intros R rab IN ST LK CO. subst rab.
  assert (TR : tree_ok (ab_with_graphics g ab)).
  { apply tree_reached in R. destruct R. constructor; assumption. }
  set (b := ab_with_graphics g ab) in *. clearbody b. clear R.
  destruct (fine_split b IN ST CO) as [F1 F2].
  destruct (dec_all enc_iso dec_iso near f P f_num f_str f_arr f_obj true (yaml_dec_rb dec_iso) (fun _ => (-1)%Z) (yaml_link near)
             b name mem) as [ab' [H1 [H2 [H3 H4]]]]; try reflexivity; auto.
  - intros; lia.
  - assert (SJ := st_joint _ ST). rewrite Forall_forall in F2, LK, SJ |- *. intros r Hr. apply (yaml_rb_ok _ _ near f P); auto.
  - exists ab'. split; [exact H1 |]. split; [exact H2 |]. split; [exact H3 |].
    assert (An : forall i, (i < ab_dof b)%nat -> anc_at ab' i = [i]).
    { intros i Hi. rewrite (tk_anc_at _ H4) by (rewrite (d_dof _ _ _ _ H2); exact Hi).
      rewrite <- (tk_rbs _ TR) in Hi. destruct (same_link_nth _ _ _ (d_links _ _ _ _ H2) i Hi) as [_ [_ [E _]]].
      unfold par. fold (rb_at ab' i) in E. rewrite E. reflexivity. }
    intros i Hi. split; [auto |].
    rewrite (tk_sub_at _ H4) by (rewrite (d_dof _ _ _ _ H2); exact Hi). rewrite (d_dof _ _ _ _ H2).
    transitivity (filter (Nat.eqb i) (seq 0 (ab_dof b))).
    { apply filter_ext_in. intros k Hk. apply in_seq in Hk. rewrite An by lia. cbn. now rewrite orb_false_r. }
    clear - Hi. assert (G : forall n s, (s <= i < s + n)%nat -> filter (Nat.eqb i) (seq s n) = [i]).
    { induction n as [| n IH]; intros s Hs; [lia |]. cbn. destruct (Nat.eqb_spec i s).
      - subst. f_equal. clear. assert (H : forall m t, (s < t)%nat -> filter (Nat.eqb s) (seq t m) = []).
        { induction m as [| m IH]; intros t Ht; [reflexivity |]. cbn.
          destruct (Nat.eqb_spec s t); [lia |]. apply IH. lia. }
        apply H. lia.
      - apply IH. lia. }
    apply G. lia.
Qed.
End Codec.

(** In memory. *)
Lemma json_memory ab g h name mem : reached solve pinv h ab ->
  let ab := ab_with_graphics g ab in storable ab ->
  Forall (fun T => dec_iso (enc_iso T) = Ok (near T)) (placements ab) ->
  exists ab', from_json dec_iso (enc_body enc_iso ab) (body_new name mem) = Ok ab' /\
    redescribed near (fun p => p) ab ab' /\ ab_Ibase ab' = ab_Ibase ab /\ same_tree ab ab'.
Proof.
  intros R rab ST CO. apply (json_whole (fun v => v) anyk) with (h := h); auto.
  - intros. now rewrite map_id.
  - intros. now rewrite map_id_pair.
  - repeat split. + apply pictures_any. + apply Forall_forall. intros. apply link_any.
  - apply Forall_forall. intros. repeat constructor.
Qed.
Lemma yaml_memory ab g h name mem : reached solve pinv h ab ->
  let ab := ab_with_graphics g ab in storable ab ->
  Forall (fun T => dec_iso (enc_iso T) = Ok (near T)) (placements ab) ->
  exists ab', from_yaml dec_iso (enc_body enc_iso ab) (body_new name mem) = Ok ab' /\
    redescribed near (fun _ => (-1)%Z) ab ab' /\ ab_Ibase ab' = ab_Ibase ab /\
    forall i, (i < ab_dof ab)%nat -> anc_at ab' i = [i] /\ subt_at ab' i = [i].
Proof.
  intros R rab ST CO. apply (yaml_whole (fun v => v) anyk) with (h := h); auto.
  - intros. now rewrite map_id.
  - intros. now rewrite map_id_pair.
  - repeat split. + apply pictures_any. + apply Forall_forall. intros. apply link_any.
  - apply Forall_forall. intros. repeat constructor.
Qed.

Lemma joint_memory y (j : joint) :
  (dec_joint y (enc_joint j) = Ok j <-> joint_ok j) /\
  (dec_joint y (enc_joint j) = Throw \/ exists j', dec_joint y (enc_joint j) = Ok j' /\ joint_ok j').
Proof.
  apply joint_iff. rewrite <- setters_ok.
  apply (dec_joint_run (fun v => v) anyk); try exact I; auto.
  - intros. now rewrite map_id_pair.
  - repeat constructor.
Qed.

(** Setter calls keep a joint readable. *)
Lemma joint_built ops j : klt 0 0 = false -> joint_run ops joint_default = Some j -> joint_ok j.
Proof.
  intros Z. assert (G : forall ops j0, joint_ok j0 -> forall j, joint_run ops j0 = Some j -> joint_ok j).
  { induction ops0 as [| o ops0 IH]; intros j0 H0 j1 E.
    - injection E as <-. exact H0.
    - assert (Q := joint_call_outcome o j0). unfold joint_run in E. cbn [fold_left] in E.
      destruct (joint_call o j0) as [s [] | s |] eqn:C; cbn [settled] in E.
      + apply (IH s); [| exact E]. clear E Q IH. destruct H0 as [A B D F G H J].
        destruct o; cbn [joint_call] in C.
        all: unfold set_q_min, set_q_max, set_q_limits, set_dq_max, set_fq_max, set_f_coulomb, set_f_viscous, set_f_stiction, set_type in C.
        all: repeat match type of C with (if ?b then _ else _) = _ => destruct b eqn:?; [discriminate |] end.
        all: injection C as <-; constructor; cbn; try assumption; reflexivity.
      + subst s. apply (IH j0); assumption.
      + contradiction. }
  apply G. constructor; cbn; try assumption; reflexivity.
Qed.

(** Through text. *)
Variable finite : K -> bool.
Variable utf8 : string -> bool.
Definition isfin (k : K) : Prop := finite k = true.

Lemma nulled_kept j : limits_in isfin j <-> limits_kept (nulled finite) j.
Proof.
  assert (G : forall b, bound_in isfin b <-> nulled finite (VNum b) = VNum b).
  { intros [| k |]; cbn; [split; [tauto | discriminate] | | split; [tauto | discriminate]].
    unfold isfin. destruct (finite k); split; congruence. }
  unfold limits_in, limits_kept. rewrite !G. split.
  - intros [A [B [C D]]]. repeat constructor; assumption.
  - intros H. inversion H as [| ? ? L1 T1]; subst. inversion T1 as [| ? ? L2 T2]; subst.
    inversion T2 as [| ? ? L3 T3]; subst. inversion T3; subst. tauto.
Qed.

Definition ok8 (s : string) : Prop := utf8 s = true.
Hypothesis own : Forall ok8 own_strings.
Lemma own8 s : existsb (String.eqb s) own_strings = true -> utf8 s = true.
Proof.
  intros H. apply existsb_exists in H as [t [Ht E]]. apply String.eqb_eq in E. subst.
  rewrite Forall_forall in own. exact (own t Ht).
Qed.

Lemma print_list l : printable utf8 (enc_list l) = true.
Proof. unfold enc_list. cbn. induction l; cbn; auto. Qed.
Ltac own := repeat match goal with |- context [utf8 ?s] => rewrite (own8 s) by reflexivity end.
Lemma print_geo g : ok8 (gmesh g) -> printable utf8 (enc_geo g) = true.
Proof.
  intros H. unfold enc_geo, enc_v3. cbn [printable forallb fst snd].
  destruct (gty g); cbn [printable forallb fst snd enc_gtype gtype_to_string]; own;
    rewrite ?print_list, ?H; reflexivity.
Qed.
Lemma print_gfx g : picture_in anyk ok8 g -> printable utf8 (enc_iso (gT g)) = true ->
  printable utf8 (enc_gfx enc_iso g) = true.
Proof.
  intros [A [B [C [D _]]]] T. unfold enc_gfx, enc_mat.
  cbn [printable forallb fst snd]. own. rewrite A, T, print_geo, B, print_list, C by assumption. reflexivity.
Qed.
Lemma print_gfxs gs : Forall (picture_in anyk ok8) gs -> Forall (fun T => printable utf8 (enc_iso T) = true) (map gT gs) ->
  forallb (printable utf8) (map (enc_gfx enc_iso) gs) = true.
Proof.
  induction gs as [| g gs IH]; intros A B; cbn [map forallb]; [reflexivity |].
  inversion A; inversion B; subst. rewrite print_gfx by assumption. auto.
Qed.
Lemma print_inertia I : printable utf8 (enc_inertia I) = true.
Proof.
  unfold enc_inertia, I_com_flat, enc_v3. cbn [printable forallb fst snd]. own. now rewrite !print_list.
Qed.
Lemma print_joint j : printable utf8 (enc_joint j) = true.
Proof. unfold enc_joint, enc_jtype. cbn [printable forallb fst snd]. destruct (jtyp j); cbn [jtype_to_string]; own; reflexivity. Qed.
Lemma print_rb r : link_in anyk ok8 r -> Forall (fun T => printable utf8 (enc_iso T) = true) (rb_T r :: map gT (rb_graphics r)) ->
  printable utf8 (enc_rb enc_iso r) = true.
Proof.
  intros [A [B _]] T. inversion T; subst. unfold enc_rb. cbn [printable forallb fst snd]. own.
  rewrite A, print_gfxs, print_inertia, print_joint by assumption.
  match goal with H : printable utf8 (enc_iso _) = true |- _ => rewrite H end. reflexivity.
Qed.
Lemma print_body ab : robot_in anyk ok8 ab -> Forall (fun T => printable utf8 (enc_iso T) = true) (placements ab) ->
  printable utf8 (enc_body enc_iso ab) = true.
Proof.
  intros [A [B [_ C]]] T. apply split_placed in T as [T1 T2]. inversion T1; subst.
  unfold enc_body. cbn [printable forallb fst snd]. own.
  rewrite A, print_gfxs, print_inertia by assumption.
  match goal with H : printable utf8 (enc_iso _) = true |- _ => rewrite H end. cbn [andb].
  replace (forallb (printable utf8) (map (enc_rb enc_iso) (ab_rbs ab))) with true; [reflexivity |].
  symmetry. clear - own C T2. induction (ab_rbs ab) as [| r rs IH]; cbn [map forallb]; [reflexivity |].
  inversion C; inversion T2; subst. rewrite print_rb by assumption. auto.
Qed.

Lemma picture_imp (P P' : K -> Prop) (Q Q' : string -> Prop) : (forall k, P k -> P' k) -> (forall s, Q s -> Q' s) ->
  forall g, picture_in P Q g -> picture_in P' Q' g.
Proof. unfold picture_in, v3_in. intros H1 H2 g. intuition auto. Qed.
Lemma robot_imp (P P' : K -> Prop) (Q Q' : string -> Prop) : (forall k, P k -> P' k) -> (forall s, Q s -> Q' s) ->
  forall ab, robot_in P Q ab -> robot_in P' Q' ab.
Proof.
  intros H1 H2 ab [A [B [C D]]]. assert (G := picture_imp P P' Q Q' H1 H2).
  assert (HI : forall I, inertia_in P I -> inertia_in P' I) by (unfold inertia_in, v3_in; intuition auto).
  split; [auto |]. split; [eapply Forall_impl; eauto |]. split; [auto |].
  eapply Forall_impl; [| exact D]. intros r [R1 [R2 [R3 [R4 [R5 R6]]]]].
  split; [auto |]. split; [eapply Forall_impl; eauto |]. auto.
Qed.

Lemma pickle_ok ab g h mem : reached solve pinv h ab ->
  let ab := ab_with_graphics g ab in storable ab ->
  robot_in isfin ok8 ab -> Forall (fun r => limits_in isfin (rb_joint r)) (ab_rbs ab) ->
  Forall (fun T => printable utf8 (enc_iso T) = true /\ dec_iso (nulled finite (enc_iso T)) = Ok (near T)) (placements ab) ->
  exists ab', pickled enc_iso dec_iso finite utf8 ab mem = Ok ab' /\
    redescribed near (fun p => p) ab ab' /\ same_tree ab ab' /\ ab_Ibase ab' = unit_mass.
Proof.
  intros R rab ST IN LI CO.
  destruct (json_whole (nulled finite) isfin) with (ab := ab) (g := g) (h := h) (name := ""%string) (mem := mem)
    as [ab' [H1 [H2 [H3 H4]]]]; auto.
  - intros k Hk. cbn. now rewrite Hk.
  - eapply robot_imp; [| | exact IN]; auto. intros; exact I.
  - eapply Forall_impl; [| exact LI]. intros r. apply nulled_kept.
  - eapply Forall_impl; [| exact CO]. cbv beta. tauto.
  - fold rab in H1, H2, H3, H4. exists (fst (body_move ab')). unfold pickled, text.
    rewrite print_body.
    + cbn [bind]. rewrite H1. cbn [bind]. split; [reflexivity |]. split; [| split; [| reflexivity]].
      * destruct H2. constructor; assumption.
      * exact H4.
    + eapply robot_imp; [| | exact IN]; auto. intros; exact I.
    + eapply Forall_impl; [| exact CO]. cbv beta. tauto.
Qed.

Lemma called_two {A} (r : mres A unit) : r <> Bad -> called r = Throw \/ exists a, called r = Ok a.
Proof. destruct r; cbn; eauto. congruence. Qed.

Lemma add_all_throw get (enc : rigid_body -> @val S) rs : forall ab,
  Forall (fun r => get (enc r) = Throw \/ exists x, get (enc r) = Ok x) rs -> Exists (fun r => get (enc r) = Throw) rs ->
  add_all get (map enc rs) ab = Throw.
Proof.
  induction rs as [| r rs IH]; intros ab F E; [inversion E |]. inversion F as [| ? ? F1 F2]; subst. cbn.
  destruct F1 as [-> | [x H]]; [reflexivity |]. rewrite H. cbn [bind].
  unfold add_rigid_body. destruct (_ || _); cbn [called bind]; [reflexivity |]. apply IH; [exact F2 |].
  inversion E as [? ? E1 | ? ? E1]; subst; [congruence | exact E1].
Qed.

Lemma limit_step k l (set : bound -> joint -> mres joint unit) j b :
  (forall b j, set b j <> Bad) -> assoc k l = Some (VNum b) ->
  opt_field false (nulled finite (VObj l)) k get_double (through_setter set) j = Throw \/
  (nulled finite (VNum b) = VNum b /\
   exists j', opt_field false (nulled finite (VObj l)) k get_double (through_setter set) j = Ok j').
Proof.
  intros NB E. cbn [nulled]. unfold opt_field. cbn [lookup bind].
  replace (assoc k (map (fun kv => (fst kv, nulled finite (snd kv))) l)) with (Some (nulled finite (VNum b))).
  2: { revert E. induction l as [| [k' w] l IH]; cbn [assoc map fst snd]; [discriminate |].
       destruct (String.eqb k k'); [congruence | exact IH]. }
  destruct b as [| x |]; cbn [nulled]; [left; reflexivity | | left; reflexivity].
  destruct (finite x); [| left; reflexivity]. cbn [get_double bind].
  destruct (called_two (set (Fin x) j) (NB _ _)) as [T | [a A]]; unfold through_setter.
  - left. exact T.
  - right. split; [reflexivity |]. eauto.
Qed.

Lemma joint_null j : ~ limits_in isfin j -> dec_joint false (nulled finite (enc_joint j)) = Throw.
Proof.
  intros H. rewrite nulled_kept in H. unfold dec_joint, enc_joint.
  match goal with |- context [VObj ?l] => set (obj := l) end.
  assert (T : req_field false (nulled finite (VObj obj)) "type" dec_jtype (assign set_type) joint_default =
              Ok (set_type (jtyp j) joint_default)).
  { erewrite (req_ok (nulled finite)); [| reflexivity | reflexivity | exact (dec_jtype_ok (nulled finite) ltac:(reflexivity) (jtyp j))].
    reflexivity. }
  rewrite T. cbn [bind]. clear T.
  assert (N1 : forall b j, set_q_min b j <> Bad) by (intros; unfold set_q_min; destruct (blt _ _); discriminate).
  assert (N2 : forall b j, set_q_max b j <> Bad) by (intros; unfold set_q_max; destruct (blt _ _); discriminate).
  assert (N3 : forall b j, set_dq_max b j <> Bad) by (intros; unfold set_dq_max; destruct (blt _ _); discriminate).
  assert (N4 : forall b j, set_fq_max b j <> Bad) by (intros; unfold set_fq_max; destruct (blt _ _); discriminate).
  destruct (limit_step "q_min" obj set_q_min (set_type (jtyp j) joint_default) (jqmin j) N1 eq_refl) as [-> | [K1 [x1 ->]]];
    [reflexivity |]. cbn [bind].
  destruct (limit_step "q_max" obj set_q_max x1 (jqmax j) N2 eq_refl) as [-> | [K2 [x2 ->]]]; [reflexivity |]. cbn [bind].
  destruct (limit_step "dq_max" obj set_dq_max x2 (jdqmax j) N3 eq_refl) as [-> | [K3 [x3 ->]]]; [reflexivity |]. cbn [bind].
  destruct (limit_step "fq_max" obj set_fq_max x3 (jfqmax j) N4 eq_refl) as [-> | [K4 [x4 ->]]]; [reflexivity |].
  exfalso. apply H. repeat constructor; assumption.
Qed.

(** A robot with a limit that is not finite cannot be pickled and read back. *)
Lemma pickle_throws ab g h mem : reached solve pinv h ab ->
  let ab := ab_with_graphics g ab in storable ab ->
  robot_in isfin any_string ab -> Exists (fun r => ~ limits_in isfin (rb_joint r)) (ab_rbs ab) ->
  Forall (fun T => dec_iso (nulled finite (enc_iso T)) = Ok (near T)) (placements ab) ->
  pickled enc_iso dec_iso finite utf8 ab mem = Throw.
Proof.
  intros R rab ST IN LI CO. unfold pickled, text. destruct (printable _ _); [| reflexivity]. cbn [bind].
  assert (FN : forall k, isfin k -> nulled finite (VNum (Fin k)) = VNum (Fin k)) by (intros k Hk; cbn; now rewrite Hk).
  destruct (fine_split (nulled finite) isfin rab IN ST CO) as [F1 F2].
  unfold from_json. rewrite (dec_body_run enc_iso dec_iso near (nulled finite) isfin) by auto.
  rewrite add_all_throw; [reflexivity | |].
  - assert (SJ := st_joint _ ST). rewrite Forall_forall in F2, SJ |- *. intros r Hr.
    rewrite (json_rb_run enc_iso dec_iso near (nulled finite) isfin) by auto.
    assert (D : limits_in isfin (rb_joint r) \/ ~ limits_in isfin (rb_joint r)).
    { assert (G : forall b, bound_in isfin b \/ ~ bound_in isfin b).
      { intros [| k |]; cbn; auto. unfold isfin. destruct (finite k); auto. }
      unfold limits_in. destruct (G (jqmin (rb_joint r))), (G (jqmax (rb_joint r))), (G (jdqmax (rb_joint r))), (G (jfqmax (rb_joint r))); tauto. }
    destruct D as [D | D].
    + right. exists (read_link near r). destruct (F2 r Hr) as [[_ [_ [_ [A [B C]]]]] _].
      unfold enc_rb. erewrite (opt_ok (nulled finite)); [| reflexivity | reflexivity |].
      2: { apply (dec_joint_ok (nulled finite) isfin); auto. apply nulled_kept. exact D. }
      reflexivity.
    + left. unfold enc_rb. cbn [nulled map fst snd]. unfold opt_field.
      match goal with |- context [lookup ?y ?v ?k] => change (lookup y v k) with (Ok (Some (nulled finite (enc_joint (rb_joint r))))) end.
      cbn [bind]. rewrite joint_null by exact D. reflexivity.
  - apply Exists_exists in LI as [r [Hr D]]. apply Exists_exists. exists r. split; [exact Hr |].
    rewrite Forall_forall in F2. rewrite (json_rb_run enc_iso dec_iso near (nulled finite) isfin) by auto.
    unfold enc_rb. cbn [nulled map fst snd]. unfold opt_field.
    match goal with |- context [lookup ?y ?v ?k] => change (lookup y v k) with (Ok (Some (nulled finite (enc_joint (rb_joint r))))) end.
    cbn [bind]. rewrite joint_null by exact D. reflexivity.
Qed.

End Whole.
