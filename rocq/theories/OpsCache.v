(** The operational-space cache along a history. *)
From Coq Require Import List Arith ZArith Bool Lia.
From Verif Require Import Scalar Base Spatial Joint Body Kin InvDyn FwdDyn Opspace OpspaceAba Deriv Sim Ops Specs SpecCache SpecOps TreeProofs CacheProofs CacheOps.
Import ListNotations.

Section OpsCache.
Context {S : Scal}.
Variable solve : list (list K) -> list K -> list K.
Variable pinv : list (list K) -> K -> list (list K) * bool.

(** ** Calls that leave the operational-space cache alone *)
Lemma op_Tp ab c : ca_op (ensure_Tp ab c) = ca_op c.
Proof. unfold ensure_Tp. destruct (is_Tp _); reflexivity. Qed.
Lemma op_Tw ab c : ca_op (ensure_Tw ab c) = ca_op c.
Proof. unfold ensure_Tw. destruct (is_Tw _); [reflexivity|]. apply op_Tp. Qed.
Lemma op_if (b : bool) c c' : ca_op c' = ca_op c -> ca_op (if b then c' else c) = ca_op c.
Proof. destruct b; auto. Qed.
Lemma op_jac ab l off c : ca_op (ensure_jac ab l off c) = ca_op c.
Proof. unfold ensure_jac. destruct (_ && _); [reflexivity|]. apply op_Tw. Qed.
Lemma op_cc ab c : ca_op (ensure_cc ab c) = ca_op c.
Proof.
  unfold ensure_cc. destruct (is_cc _); [reflexivity|]. destruct (for_up _ _ _) as [[v cc] f]. destruct (for_down _ _ _) as [C f']. cbn.
  apply op_if, op_Tp.
Qed.
Lemma op_grav ab c : ca_op (ensure_grav ab c) = ca_op c.
Proof.
  unfold ensure_grav. destruct (is_grav _); [reflexivity|]. destruct (for_down _ _ _) as [C f']. cbn.
  destruct (has_child ab); rewrite ?op_Tp; apply op_if, op_Tw.
Qed.
Lemma op_ext ab fe c : ca_op (fst (ext_torques ab fe c)) = ca_op c.
Proof.
  unfold ext_torques. destruct (for_down _ _ _) as [t f]. cbn. destruct (has_ext ab fe); rewrite ?op_Tw; apply op_if, op_Tp.
Qed.
Lemma op_crba ab c : ca_op (ensure_crba ab c) = ca_op c.
Proof. unfold ensure_crba. destruct (is_crba _); [reflexivity|]. destruct (for_down _ _ _) as [t f]. cbn. apply op_if, op_Tp. Qed.
Lemma op_crba_inv ab c : ca_op (ensure_crba_inv ab c) = ca_op c.
Proof. unfold ensure_crba_inv. destruct (is_crba_inv _); [reflexivity|]. apply op_crba. Qed.
Lemma op_id ab ddq fe o c : ca_op (fst (inverse_dynamics ab ddq fe o c)) = ca_op c.
Proof.
  unfold inverse_dynamics. destruct (_ && _).
  - pose proof (op_ext ab fe c) as X. destruct (ext_torques ab fe c). exact X.
  - destruct (for_up _ _ _) as [[v a] f]. destruct (for_down _ _ _) as [t f']. cbn.
    destruct (has_child ab); rewrite ?op_Tp; apply op_if, op_Tw.
Qed.
Lemma op_fd ab tau fe o c : ca_op (fst (forward_dynamics solve ab tau fe o c)) = ca_op c.
Proof.
  unfold forward_dynamics. pose proof (op_id ab (vec (ab_dof ab) (fun _ => k0)) fe (IdOpts (o_grav o) (o_cc o) false (klit 1 100)) c) as X.
  destruct (inverse_dynamics _ _ _ _ _). cbn in *. rewrite op_crba_inv. exact X.
Qed.
Lemma op_rnea ab ddq fe o c : ca_op (id_rnea ab ddq fe o c) = ca_op c.
Proof.
  unfold id_rnea. pose proof (op_id ab ddq fe o (clear_crba c)) as X. destruct (inverse_dynamics _ _ _ _ _). exact X.
Qed.
Lemma op_vd ab ddq fe o c : ca_op (fst (velocity_derivative ab ddq fe o c)) = ca_op c.
Proof.
  unfold velocity_derivative. destruct (negb _); [reflexivity|]. destruct (for_up _ _ _) as [[v a] f]. destruct (for_down _ _ _) as [t f'].
  cbn. destruct (has_child ab); rewrite ?op_Tp; apply op_rnea.
Qed.
Lemma op_Ainv ab c : ca_op (ensure_Ainv ab c) = ca_op c.
Proof.
  unfold ensure_Ainv. destruct (is_Ainv _); [reflexivity|]. destruct (for_down _ _ _) as [[[Ia h] d] [X P]].
  match goal with |- context [for_up ?n ?f (X, ?z)] => destruct (for_up n f (X, z)) as [X' A'] end. cbn. apply op_if, op_Tp.
Qed.
Lemma op_fda ab tau fe o c : ca_op (fst (forward_dynamics_aba ab tau fe o c)) = ca_op c.
Proof.
  unfold forward_dynamics_aba. set (c1 := if has_ext ab fe then ensure_Tw ab c else c).
  set (c2 := if has_child ab || _ then ensure_Tp ab c1 else c1).
  assert (E2 : ca_op c2 = ca_op c) by (unfold c2, c1; destruct (_ || _); rewrite ?op_Tp; apply op_if, op_Tw). clearbody c2.
  destruct (for_up _ _ _) as [[[v a] Ia] f]. destruct (for_down _ _ _) as [[[[Ia' h] d] f'] x']. destruct (for_up _ _ _) as [a'' x'']. exact E2.
Qed.
Lemma op_oainv ab l off c : ca_op (oa_inertia_inverse ab l off c) = ca_op c.
Proof.
  unfold oa_inertia_inverse. destruct (_ && _); [reflexivity|]. destruct (for_up _ _ _) as [Ia p]. destruct (for_down _ _ _) as [[[Ia' h] d] [p' u]].
  cbn. rewrite op_Tp. apply op_Tw.
Qed.
Lemma op_oain ab l off eps c : ca_op (oa_inertia pinv ab l off eps c) = ca_op c.
Proof. unfold oa_inertia. destruct (_ && _); [reflexivity|]. cbn. apply op_oainv. Qed.
Lemma op_oacc ab l off eps c : ca_op (fst (oa_cc pinv ab l off eps c)) = ca_op c.
Proof.
  unfold oa_cc. destruct (for_up _ _ _) as [[[v a] Ia] f]. destruct (for_down _ _ _) as [[[[Ia' h] d] f'] x]. cbn [fst].
  rewrite op_oain, op_Tw. cbn. apply op_Tp.
Qed.
Lemma op_oagrav ab l off fe eps c : ca_op (fst (oa_gravity pinv ab l off fe eps c)) = ca_op c.
Proof.
  unfold oa_gravity. destruct (for_up _ _ _) as [Ia f]. destruct (for_down _ _ _) as [[[[Ia' h] d] f'] x]. cbn [fst].
  rewrite op_oain. cbn. rewrite op_Tp. apply op_Tw.
Qed.

(** ** Values *)
Section Values.
Variable ab : body.
Let n := ab_dof ab.
Definition xv (J : lmat) : lmat := ltr (List.length J) n (map (solve (mat n n (Av ab))) J).
Definition linvv (J : lmat) : lmat := lmul (List.length J) n (List.length J) J (xv J).
Definition lamv (J : lmat) (e : K) : lmat := fst (pinv (linvv J) e).
Definition jbv (J : lmat) (e : K) : lmat := lmul n (List.length J) (List.length J) (xv J) (lamv J e).
End Values.
Arguments xv : simpl never.
Arguments linvv : simpl never.
Arguments lamv : simpl never.
Arguments jbv : simpl never.
Arguments lmul : simpl never.

(** Coherence; [one = Some e] says that the dynamically consistent inverse was only ever computed with threshold [e]. *)
Record opi (one : option K) (ab : body) (d : opspace_data) : Prop := {
  oi_inv : is_lambda_inv d = true -> o_AinvJt d = xv ab (o_J d) /\ o_Linv d = linvv ab (o_J d);
  oi_lam : is_lambda d = true -> is_lambda_inv d = true /\ o_Lambda d = lamv ab (o_J d) (o_eps d) /\ o_singular d = snd (pinv (linvv ab (o_J d)) (o_eps d));
  oi_jbar : is_jbar d = true -> is_lambda_inv d = true /\ forall e, one = Some e -> o_Jbar d = jbv ab (o_J d) e
}.
Lemma opi_off one ab d : is_lambda d = false -> is_lambda_inv d = false -> is_jbar d = false -> opi one ab d.
Proof. intros A B C. constructor; congruence. Qed.
Definition same_mass (a b : body) : Prop :=
  ab_dof a = ab_dof b /\ ab_rbs a = ab_rbs b /\ ab_q a = ab_q b /\ ab_loads a = ab_loads b /\ ab_anc a = ab_anc b.
Lemma opi_mass one a b c : same_mass a b -> opi one a c -> opi one b c.
Proof. destruct a, b. unfold same_mass. cbn. intros (-> & -> & -> & -> & ->) H. destruct H as [H1 H2 H3]. constructor; [exact H1|exact H2|exact H3]. Qed.

Context {ES : EqSound S}.
Lemma veqb_sound (a b : list K) : veqb a b = true -> a = b.
Proof.
  revert b. induction a as [|x a IH]; destruct b as [|y b]; cbn; try discriminate; auto. intros H. apply andb_true_iff in H. destruct H as [H1 H2].
  apply keq_sound in H1. subst. f_equal. auto.
Qed.
Lemma leqb_sound (a b : lmat) : leqb a b = true -> a = b.
Proof.
  revert b. induction a as [|x a IH]; destruct b as [|y b]; cbn; try discriminate; auto. intros H. apply andb_true_iff in H. destruct H as [H1 H2].
  apply veqb_sound in H1. subst. f_equal. auto.
Qed.

Section Run.
Variable ab : body.
Hypothesis T : tree_ok ab.
Variable one : option K.

Lemma linv_ok J c : inv ab c -> opi one ab (ca_op c) -> let c' := ops_inertia_inverse solve ab J c in
  opi one ab (ca_op c') /\ is_lambda_inv (ca_op c') = true /\ o_J (ca_op c') = J.
Proof.
  intros V O. unfold ops_inertia_inverse. destruct (is_lambda_inv (ca_op c) && _) eqn:E.
  - apply andb_true_iff in E. destruct E as [E1 E2]. apply leqb_sound in E2. auto.
  - cbn. split; [|auto]. destruct (ensure_crba_inv_inv ab T c V) as [V1 F1].
    rewrite (mat_ext _ _ _ (Av ab)) by (intros; apply (i_crbai _ _ V1 F1); auto).
    constructor; cbn; try discriminate. auto.
Qed.
Lemma lam_ok J e c : inv ab c -> opi one ab (ca_op c) -> let c' := ops_inertia solve pinv ab J e c in
  opi one ab (ca_op c') /\ is_lambda (ca_op c') = true /\ o_J (ca_op c') = J /\ o_eps (ca_op c') = e /\
  o_Lambda (ca_op c') = lamv ab J e /\ o_singular (ca_op c') = snd (pinv (linvv ab J) e).
Proof.
  intros V O. unfold ops_inertia. destruct (is_lambda (ca_op c) && _ && _) eqn:E.
  - apply andb_true_iff in E. destruct E as [E E3]. apply andb_true_iff in E. destruct E as [E1 E2]. apply leqb_sound in E2. apply keq_sound in E3.
    destruct (oi_lam _ _ _ O E1) as (X1 & X2 & X3). cbn zeta. rewrite E2, E3 in *. repeat (split; [auto|]). auto.
  - destruct (linv_ok J c V O) as (O1 & F1 & J1). set (c1 := ops_inertia_inverse solve ab J c) in *. clearbody c1. cbn zeta in *.
    destruct (pinv (o_Linv (ca_op c1)) e) as [Lam sing] eqn:Q. cbn.
    destruct (oi_inv _ _ _ O1 F1) as [X1 X2]. rewrite X2, J1 in Q. unfold lamv. rewrite Q. split; [|repeat (split; [auto|]); auto].
    constructor; cbn; rewrite ?J1, ?Q; auto.
    + intros _. rewrite <- J1. auto.
    + intros _. unfold lamv. rewrite Q. auto.
    + intros B. rewrite <- J1. apply (oi_jbar _ _ _ O1 B).
Qed.
Lemma jb_ok J e c : one = Some e -> inv ab c -> opi one ab (ca_op c) -> let c' := ops_jbar solve pinv ab J e c in
  opi one ab (ca_op c') /\ o_Jbar (ca_op c') = jbv ab J e /\ o_J (ca_op c') = J.
Proof.
  intros H1 V O. unfold ops_jbar. destruct (is_jbar (ca_op c) && _ && _) eqn:E.
  - apply andb_true_iff in E. destruct E as [E E3]. apply andb_true_iff in E. destruct E as [E1 E2]. apply leqb_sound in E2.
    destruct (oi_jbar _ _ _ O E1) as (X1 & X2). cbn zeta. rewrite (X2 _ H1), E2. auto.
  - destruct (lam_ok J e c V O) as (O1 & F1 & J1 & E1 & L1 & _). set (c1 := ops_inertia solve pinv ab J e c) in *. clearbody c1. cbn zeta in *. cbn.
    destruct (oi_lam _ _ _ O1 F1) as (X1 & X2 & X3). destruct (oi_inv _ _ _ O1 X1) as [Y1 Y2].
    assert (B : lmul (ab_dof ab) (List.length J) (List.length J) (o_AinvJt (ca_op c1)) (o_Lambda (ca_op c1)) = jbv ab J e) by (rewrite Y1, L1, J1; reflexivity).
    rewrite B. split; [|auto]. constructor; cbn; rewrite ?J1; auto.
    + intros _. rewrite <- J1. auto.
    + intros _. rewrite X2, X3, J1. auto.
    + intros _. split; auto. intros e' He'. congruence.
Qed.
(** Whatever the thresholds. *)
Lemma jb_keep J e c : one = None -> inv ab c -> opi one ab (ca_op c) -> opi one ab (ca_op (ops_jbar solve pinv ab J e c)).
Proof.
  intros H1 V O. unfold ops_jbar. destruct (is_jbar (ca_op c) && _ && _) eqn:E; auto.
  destruct (lam_ok J e c V O) as (O1 & F1 & J1 & E1 & L1 & _). set (c1 := ops_inertia solve pinv ab J e c) in *. clearbody c1. cbn zeta in *. cbn.
  destruct (oi_lam _ _ _ O1 F1) as (X1 & X2 & X3). destruct O1 as [A1 A2 A3]. constructor; cbn; auto. intros _. split; auto. intros e' He'. congruence.
Qed.
Definition fits (e : K) : Prop := forall e', one = Some e' -> e = e'.
Lemma jb_opi J e c : fits e -> inv ab c -> opi one ab (ca_op c) -> opi one ab (ca_op (ops_jbar solve pinv ab J e c)).
Proof.
  intros F V O. assert (X : one = None \/ exists e', one = Some e') by (destruct one; eauto). destruct X as [X|[e' X]]; [apply jb_keep; auto|].
  rewrite (F e' X) in *. apply jb_ok; auto.
Qed.

(** J_bar' x for the right J_bar. *)
Definition jbt (J : lmat) (e : K) (x : list K) : list K := lmulv (List.length J) (ab_dof ab) (ltr (ab_dof ab) (List.length J) (jbv ab J e)) x.
Definition occv (J : lmat) (l : nat) (e : K) : list K :=
  let mu := jbt J e (vec (ab_dof ab) (Cv ab)) in
  let x := lmulv 6 6 (lamv ab J k0) (m6 (mact (Iso (rot (twv ab l)) v3zero) (ccv ab l))) in
  vec 6 (fun i => ksub (qk mu i) (qk x i)).
Lemma occ_ok J l e c : fits e -> inv ab c -> opi one ab (ca_op c) ->
  match ops_cc solve pinv ab J l e c with
  | Ok (c', x) => inv ab c' /\ opi one ab (ca_op c') /\ (one = Some e -> exists i, idx (ab_dof ab) l = Some i /\ x = occv J i e) /\ List.length J = 6
  | Throw => List.length J <> 6
  | UB => List.length J = 6 /\ idx (ab_dof ab) l = None
  end.
Proof.
  intros F V O. unfold ops_cc. destruct (Nat.eqb_spec (List.length J) 6) as [E6|E6]; cbn [negb]; [|exact E6].
  destruct (idx (ab_dof ab) l) as [i|] eqn:Ei; [|auto]. cbn zeta.
  set (c1 := ops_jbar solve pinv ab J e c).
  assert (V1 : inv ab c1) by (apply ops_jbar_inv; auto).
  assert (O1 : opi one ab (ca_op c1)) by (apply jb_opi; auto).
  destruct (ensure_cc_inv ab T c1 V1) as [V2 F2]. pose proof (op_cc ab c1) as O2. set (c2 := ensure_cc ab c1) in *.
  assert (C2 : ca_cc c2 = ca_cc (ensure_cc ab c1)) by reflexivity.
  rewrite <- O2 in O1. assert (V3 : inv ab (ops_inertia solve pinv ab J k0 c2)) by (apply ops_inertia_inv; auto).
  destruct (lam_ok J k0 c2 V2 O1) as (O3 & _ & _ & _ & L3 & _). 
  assert (CC3 : ca_cc (ops_inertia solve pinv ab J k0 c2) = ca_cc c2).
  { unfold ops_inertia, ops_inertia_inverse, ensure_crba_inv, ensure_crba. destruct (_ && _ && _); [reflexivity|]. destruct (pinv _ _). cbn.
    destruct (_ && _); [reflexivity|]. cbn. destruct (is_crba_inv _); [reflexivity|]. destruct (is_crba _); [reflexivity|]. destruct (for_down _ _ _) as [? ?]. cbn.
    destruct (has_child ab); [|reflexivity]. destruct (sr_Tp ab c2) as [t ->]. reflexivity. }
  set (c3 := ops_inertia solve pinv ab J k0 c2) in *.
  split; [apply ensure_Tw_inv; auto|]. split; [rewrite op_Tw; auto|]. split; [|auto].
  intros H1. exists i. split; auto. apply idx_spec in Ei. destruct Ei as [Ei _].
  apply vec_ext. intros k Hk. f_equal.
  - f_equal. unfold jbar_t. rewrite O2. unfold jbt. f_equal; [f_equal|].
    + apply (jb_ok J e c H1 V O).
    + apply vec_ext. intros j Hj. apply (i_cc _ _ V2 F2 j Hj).
  - f_equal. rewrite op_Tw, L3. f_equal. f_equal. f_equal.
    + f_equal. f_equal. apply (ensure_Tw_at ab T c3 i V3 Ei).
    + destruct (sr_Tw ab c3) as [t ->]. cbn. rewrite CC3. apply (i_cc _ _ V2 F2 i Ei).
Qed.
Lemma ograv_ok J e c : fits e -> inv ab c -> opi one ab (ca_op c) -> let '(c', x) := ops_gravity solve pinv ab J e c in
  inv ab c' /\ opi one ab (ca_op c') /\ (one = Some e -> x = jbt J e (vec (ab_dof ab) (Gv ab))).
Proof.
  intros F V O. unfold ops_gravity.
  assert (V1 : inv ab (ops_jbar solve pinv ab J e c)) by (apply ops_jbar_inv; auto).
  destruct (ensure_grav_inv ab T _ V1) as [V2 F2]. pose proof (op_grav ab (ops_jbar solve pinv ab J e c)) as O2.
  split; [exact V2|]. split; [rewrite O2; apply jb_opi; auto|]. intros H1. unfold jbar_t. rewrite O2. unfold jbt. f_equal; [f_equal|].
  - apply (jb_ok J e c H1 V O).
  - apply vec_ext. intros j Hj. apply (i_grav _ _ V2 F2 j Hj).
Qed.
Lemma oext_ok J fe e c : fits e -> inv ab c -> opi one ab (ca_op c) -> let '(c', x) := ops_external solve pinv ab J fe e c in
  inv ab c' /\ opi one ab (ca_op c') /\ (one = Some e -> x = jbt J e (vec (ab_dof ab) (Extv ab fe))).
Proof.
  intros F V O. unfold ops_external.
  assert (V1 : inv ab (ops_jbar solve pinv ab J e c)) by (apply ops_jbar_inv; auto).
  destruct (ext_torques_inv ab T fe _ V1) as (V2 & X2 & _). pose proof (op_ext ab fe (ops_jbar solve pinv ab J e c)) as O2.
  destruct (ext_torques ab fe _) as [c2 t2]. cbn [fst snd] in *.
  split; [exact V2|]. split; [rewrite O2; apply jb_opi; auto|]. intros H1. unfold jbar_t. rewrite O2. unfold jbt. f_equal; [f_equal|].
  - apply (jb_ok J e c H1 V O).
  - apply vec_ext. auto.
Qed.
Lemma ofric_ok J tau e st c : fits e -> inv ab c -> opi one ab (ca_op c) -> let '(c', x) := ops_friction solve pinv ab J tau e st c in
  inv ab c' /\ opi one ab (ca_op c') /\ (one = Some e -> x = jbt J e (vec (ab_dof ab) (friction_arr ab (qk tau) (negb (keq st k0)) (klit 1 100)))).
Proof.
  intros F V O. unfold ops_friction. split; [apply ops_jbar_inv; auto|]. split; [apply jb_opi; auto|]. intros H1. unfold jbar_t, jbt. f_equal. f_equal.
  apply (jb_ok J e c H1 V O).
Qed.

(** opspace::InverseDynamics *)
Definition oid_J (J : lmat) (N : option lmat) : lmat :=
  match N with Some ((_ :: _) as M) => lmul (List.length J) (ab_dof ab) (ab_dof ab) J M | _ => J end.
Definition oid_F0 (J : lmat) (ddx : list K) (fe : fmap) (fe_empty : bool) (o : ops_opts) : list K :=
  let e := p_svd o in
  let F := clip_force (p_facc o) (lmulv (List.length J) (List.length J) (lamv ab J e) ddx) in
  let F := if fe_empty then F else vadd F (jbt J e (vec (ab_dof ab) (Extv ab fe))) in
  if p_grav o then vadd F (jbt J e (vec (ab_dof ab) (Gv ab))) else F.
Definition oid_F1 (J : lmat) (o : ops_opts) (F : list K) : list K :=
  if p_fric o then vadd F (jbt J (p_svd o) (vec (ab_dof ab) (friction_arr ab (qk (lmulv (ab_dof ab) (List.length J) (ltr (List.length J) (ab_dof ab) J) F))
                              (negb (keq (p_stic o) k0)) (klit 1 100))))
  else F.
Definition oid_N (J : lmat) (N : option lmat) (o : ops_opts) : option lmat :=
  match N with
  | None => None
  | Some M => let P := lsub (ab_dof ab) (ab_dof ab) (lid (ab_dof ab)) (lmul (ab_dof ab) (List.length J) (ab_dof ab) (jbv ab J (p_svd o)) J) in
              Some (match M with nil => P | _ => lmul (ab_dof ab) (ab_dof ab) (ab_dof ab) P M end)
  end.
Definition oid_val (J : lmat) (ddx : list K) (N : option lmat) (fe : fmap) (fe_empty : bool) (o : ops_opts) : res (option lmat * list K) :=
  let m := List.length J in
  let Jx := oid_J J N in
  let F := oid_F0 Jx ddx fe fe_empty o in
  bind (if p_cc o then
          if Nat.eqb (List.length Jx) 6 then
            match idx (ab_dof ab) (ktrunc (p_svd o)) with None => UB | Some i => Ok (vadd F (occv Jx i k0)) end
          else Throw
        else Ok F) (fun F => Ok (oid_N Jx N o, lmulv (ab_dof ab) m (ltr m (ab_dof ab) Jx) (oid_F1 Jx o F))).
Lemma mat_length {A} r c (f : arr2 A) : List.length (mat r c f) = r.
Proof. unfold mat. rewrite map_length, seq_length. auto. Qed.
Lemma oid_J_length J N : List.length (oid_J J N) = List.length J.
Proof. unfold oid_J. destruct N as [[|]|]; auto. unfold lmul. apply mat_length. Qed.
Lemma oid_ok J ddx N fe b o c : fits (p_svd o) -> (p_cc o = true -> fits k0) -> inv ab c -> opi one ab (ca_op c) ->
  match ops_inverse_dynamics solve pinv ab J ddx N fe b o c with
  | Ok (c', x) => opi one ab (ca_op c') /\ (one = Some (p_svd o) -> oid_val J ddx N fe b o = Ok x)
  | Throw => one = Some (p_svd o) -> oid_val J ddx N fe b o = Throw
  | UB => one = Some (p_svd o) -> oid_val J ddx N fe b o = UB
  end.
Proof.
  intros Fe Fc V O. unfold ops_inverse_dynamics. cbn zeta. unfold oid_val. cbn zeta. fold (oid_J J N).
  pose proof (oid_J_length J N) as HL. set (Jx := oid_J J N) in *. rewrite <- HL.
  set (m := List.length Jx). 
  pose proof (ops_inertia_inv solve pinv ab T Jx (p_svd o) c V) as V1. destruct (lam_ok Jx (p_svd o) c V O) as (O1 & _ & _ & _ & L1 & _).
  set (c1 := ops_inertia solve pinv ab Jx (p_svd o) c) in *. clearbody c1. cbn zeta in *. rewrite L1.
  set (F := clip_force (p_facc o) _).
  match goal with |- context [if b then (c1, F) else ?y] => assert (X2 : exists c2 F2, (if b then (c1, F) else y) = (c2, F2) /\ inv ab c2 /\ opi one ab (ca_op c2) /\
     (one = Some (p_svd o) -> F2 = if b then F else vadd F (jbt Jx (p_svd o) (vec (ab_dof ab) (Extv ab fe))))) end.
  { destruct b; [exists c1, F; auto|]. pose proof (oext_ok Jx fe (p_svd o) c1 Fe V1 O1) as X. destruct (ops_external _ _ _ _ _ _ _) as [c2 x]. destruct X as (A1 & A2 & A3).
    do 2 eexists. split; [reflexivity|]. split; auto. split; auto. intros H. rewrite A3; auto. }
  destruct X2 as (c2 & F2 & -> & V2 & O2 & E2).
  match goal with |- context [if p_grav o then ?x else (c2, F2)] => assert (X3 : exists c3 F3, (if p_grav o then x else (c2, F2)) = (c3, F3) /\ inv ab c3 /\ opi one ab (ca_op c3) /\
     (one = Some (p_svd o) -> F3 = oid_F0 Jx ddx fe b o)) end.
  { unfold oid_F0. cbn zeta. fold m F. destruct (p_grav o); [|exists c2, F2; auto].
    pose proof (ograv_ok Jx (p_svd o) c2 Fe V2 O2) as X. destruct (ops_gravity _ _ _ _ _ _) as [c3 x]. destruct X as (A1 & A2 & A3).
    do 2 eexists. split; [reflexivity|]. split; auto. split; auto. intros H. rewrite A3, E2; auto. }
  destruct X3 as (c3 & F3 & -> & V3 & O3 & E3).
  match goal with |- context [bind (if p_cc o then ?x else Ok (c3, F3)) _] => assert (X4 : match (if p_cc o then x else Ok (c3, F3)) with
     | Ok (c4, F4) => inv ab c4 /\ opi one ab (ca_op c4) /\ (one = Some (p_svd o) -> (if p_cc o then if Nat.eqb m 6 then match idx (ab_dof ab) (ktrunc (p_svd o)) with
            | Some i => Ok (vadd (oid_F0 Jx ddx fe b o) (occv Jx i k0)) | None => UB end else Throw else Ok (oid_F0 Jx ddx fe b o)) = Ok F4)
     | Throw => p_cc o = true /\ m <> 6
     | UB => p_cc o = true /\ m = 6 /\ idx (ab_dof ab) (ktrunc (p_svd o)) = None end) end.
  { destruct (p_cc o); [|split; [auto|split; [auto|intros H; rewrite E3; auto]]].
    pose proof (occ_ok Jx (ktrunc (p_svd o)) k0 c3 (Fc eq_refl) V3 O3) as X. destruct (ops_cc _ _ _ _ _ _ _) as [[c4 x]| |]; cbn [bind]; auto.
    destruct X as (A1 & A2 & A3 & A4). split; auto. split; auto. intros H. fold m in A4. rewrite A4. cbn [Nat.eqb].
    destruct A3 as (i & Ai & Ax). { rewrite H. f_equal. symmetry. apply (Fc eq_refl). auto. } rewrite Ai, Ax, E3; auto. }
  match goal with |- context [bind (if p_cc o then ?x else Ok (c3, F3)) _] => destruct (if p_cc o then x else Ok (c3, F3)) as [[c4 F4]| |] end; cbn [bind].
  2:{ intros _. destruct X4 as [-> X4]. apply Nat.eqb_neq in X4. rewrite X4. reflexivity. }
  2:{ intros _. destruct X4 as (-> & -> & ->). reflexivity. }
  destruct X4 as (V4 & O4 & E4).
  match goal with |- context [if p_fric o then ?x else (c4, F4)] => assert (X5 : exists c5 F5, (if p_fric o then x else (c4, F4)) = (c5, F5) /\ inv ab c5 /\ opi one ab (ca_op c5) /\
     (one = Some (p_svd o) -> F5 = oid_F1 Jx o F4)) end.
  { unfold oid_F1. destruct (p_fric o); [|exists c4, F4; auto].
    pose proof (ofric_ok Jx (lmulv (ab_dof ab) m (ltr m (ab_dof ab) Jx) F4) (p_svd o) (p_stic o) c4 Fe V4 O4) as X.
    destruct (ops_friction _ _ _ _ _ _ _ _) as [c5 x]. destruct X as (A1 & A2 & A3).
    do 2 eexists. split; [reflexivity|]. split; auto. split; auto. intros H. rewrite A3; auto. }
  destruct X5 as (c5 & F5 & -> & V5 & O5 & E5).
  destruct N as [M|].
  - split; [apply jb_opi; auto|]. intros H. rewrite (E4 H). cbn [bind]. do 2 f_equal; [|rewrite E5; auto].
    unfold oid_N. cbn zeta. destruct (jb_ok Jx (p_svd o) c5 H V5 O5) as (_ & -> & _). destruct M; reflexivity.
  - split; auto. intros H. rewrite (E4 H). cbn [bind]. do 2 f_equal. rewrite E5; auto.
Qed.
End Run.

(** ** Calls *)
Definition oone (e : option K) (o : op) : Prop :=
  match o with OAsk q => forall x, In x (thresholds q) -> forall e', e = Some e' -> x = e' | _ => True end.
Definition wop (one : option K) (ab : body) : Prop := exists c, ab_cache ab = Some c /\ opi one ab (ca_op c).
Lemma on_cache_op {X} one ab (f : cache -> res (cache * X)) ab' x :
  (forall c c' y, inv ab c -> opi one ab (ca_op c) -> f c = Ok (c', y) -> opi one ab (ca_op c')) -> wfc ab -> wop one ab ->
  on_cache ab f = Ok (ab', x) -> wop one ab'.
Proof.
  intros H (c1 & E1 & V1) (c & E & A0). assert (c1 = c) by congruence. subst. unfold on_cache. rewrite E. destruct (f c) as [[c' y]| |] eqn:F; cbn; try discriminate.
  intros X0; inversion X0; subst. exists c'. split; auto. eapply opi_mass; [|eapply H; eauto]. repeat split.
Qed.
Ltac okinv := let H := fresh in intros H; inversion H; subst; clear H.
Ltac same := match goal with |- opi _ _ ?x => match goal with A : opi ?o ?r ?y |- _ => refine (eq_ind y (opi o r) A x _); symmetry end end;
   cbn [ca_op with_rnea with_aba with_vel with_oa fst]; rewrite ?op_Tp, ?op_Tw, ?op_jac, ?op_cc, ?op_grav, ?op_crba, ?op_crba_inv, ?op_Ainv, ?op_oainv, ?op_oain, ?op_rnea; try reflexivity; auto.

Lemma ask_op one q ab ab' x : tree_ok ab -> wfc ab -> wop one ab -> oone one (OAsk q) -> ask solve pinv q ab = Ok (ab', x) -> wop one ab'.
Proof.
  intros T WC W NL E.
  assert (FI : forall x, In x (thresholds q) -> fits one x) by (intros y Hy e' He'; apply (NL y Hy e' He')).
  assert (OT : forall l a1 t, q_T_to_world l ab = Ok (a1, t) -> wop one a1).
  { intros l a1 t Q. revert Q. apply on_cache_op; auto. intros c c' z V A. destruct (idx _ _); [|discriminate]. okinv. same. }
  assert (OJ : forall l off a1 t, q_Jacobian l off ab = Ok (a1, t) -> wop one a1).
  { intros l off a1 t Q. revert Q. apply on_cache_op; auto. intros c c' z V A. destruct (idx _ _); [|discriminate]. okinv. same. }
  destruct q; cbn in E; apply wrap_inv in E; destruct E as (y & E & _).
  - revert E. apply on_cache_op; auto. intros c c' z V A. destruct (idx _ _); [|discriminate]. okinv. same.
  - eapply OT; eauto.
  - unfold q_Position, bind in E. destruct (q_T_to_world l ab) as [[a1 t]| |] eqn:Q; try discriminate. inversion E; subst. eapply OT; eauto.
  - unfold q_Orientation, bind in E. destruct (q_T_to_world l ab) as [[a1 t]| |] eqn:Q; try discriminate. inversion E; subst. eapply OT; eauto.
  - unfold q_CartesianPose, bind in E. destruct (q_T_to_world l ab) as [[a1 t]| |] eqn:Q; try discriminate. inversion E; subst. eapply OT; eauto.
  - eapply OJ; eauto.
  - unfold q_LinearJacobian, bind in E. destruct (q_Jacobian l off ab) as [[a1 t]| |] eqn:Q; try discriminate. inversion E; subst. eapply OJ; eauto.
  - unfold q_AngularJacobian, bind in E. destruct (ab_cache ab) as [c0|]; [|discriminate].
    destruct (q_Jacobian l _ ab) as [[a1 t]| |] eqn:Q; try discriminate. inversion E; subst. eapply OJ; eauto.
  - revert E. apply on_cache_op; auto. intros c c' z V A. destruct (idx _ _) eqn:Q; [|discriminate]. okinv. same.
  - revert E. apply on_cache_op; auto. intros c c' z V A. okinv. same.
  - revert E. apply on_cache_op; auto. intros c c' z V A. okinv. same.
  - revert E. apply on_cache_op; auto. intros c c' z V A. pose proof (op_ext ab fe c) as X.
    destruct (ext_torques ab fe c). okinv. same.
  - revert E. apply on_cache_op; auto. intros c c' z V A. okinv. same.
  - revert E. apply on_cache_op; auto. intros c c' z V A. destruct (idx _ _); [|discriminate]. okinv. same.
  - unfold q_InertiaInverse_solve in E. destruct (Nat.eqb _ _); [|discriminate].
    revert E. apply on_cache_op; auto. intros c c' z V A. okinv. same.
  - unfold q_InverseDynamics in E. destruct (Nat.eqb _ _); [|discriminate].
    revert E. apply on_cache_op; auto. intros c c' z V A. pose proof (op_id ab ddq fe o c) as X.
    destruct (inverse_dynamics ab ddq fe o c). okinv. same.
  - unfold q_ForwardDynamics in E. destruct (Nat.eqb _ _); [|discriminate].
    revert E. apply on_cache_op; auto. intros c c' z V A. pose proof (op_fd ab tau fe o c) as X.
    destruct (forward_dynamics _ ab tau fe o c). okinv. same.
  - unfold q_ForwardDynamicsAba in E. destruct (Nat.eqb _ _); [|discriminate].
    revert E. apply on_cache_op; auto. intros c c' z V A. pose proof (op_fda ab tau fe o c) as X.
    destruct (forward_dynamics_aba ab tau fe o c). okinv. same.
  - revert E. apply on_cache_op; auto. intros c c' z V A. okinv. same.
  - unfold q_VelocityDerivative in E.
    assert (X : forall c c' z, inv ab c -> opi one ab (ca_op c) -> (let '(c, t) := velocity_derivative ab ddq fe o c in Ok (c, mat (ab_dof ab) (ab_dof ab) t)) = Ok (c', z) -> opi one ab (ca_op c')).
    { intros c c' z V A. pose proof (op_vd ab ddq fe o c) as X. destruct (velocity_derivative ab ddq fe o c). okinv. same. }
    destruct (o_cc o); [destruct (Nat.eqb _ _); [|discriminate]|]; revert E; apply on_cache_op; auto.
  - unfold q_PositionDerivative in E. destruct (Nat.eqb _ _); [|discriminate].
    revert E. apply on_cache_op; auto. intros c c' z V A. destruct (_ && _); [discriminate|]. okinv. same.
    destruct (_ || _); rewrite ?op_Tw; apply op_rnea.
  - unfold q_ops_InertiaInverse, with_J in E. destruct (shape _ _ _); [|discriminate].
    revert E. apply on_cache_op; auto. intros c c' z V A. okinv. apply linv_ok; auto.
  - unfold q_ops_Inertia, with_J in E. destruct (shape _ _ _); [|discriminate].
    revert E. apply on_cache_op; auto. intros c c' z V A. okinv. apply lam_ok; auto.
  - unfold q_ops_JacobianDynamicInverse, with_J in E. destruct (shape _ _ _); [|discriminate].
    revert E. apply on_cache_op; auto. intros c c' z V A. okinv. apply jb_opi; auto. apply FI. cbn. auto.
  - unfold q_ops_IsSingular, with_J in E. destruct (shape _ _ _); [|discriminate].
    revert E. apply on_cache_op; auto. intros c c' z V A. okinv. apply lam_ok; auto.
  - unfold q_ops_CentrifugalCoriolis, with_J in E. destruct (shape _ _ _); [|discriminate].
    revert E. apply on_cache_op; auto. intros c c' z V A H. pose proof (occ_ok ab T one J l eps c (FI eps ltac:(cbn; auto)) V A) as X. rewrite H in X. apply X.
  - unfold q_ops_Gravity, with_J in E. destruct (shape _ _ _); [|discriminate].
    revert E. apply on_cache_op; auto. intros c c' z V A H. pose proof (ograv_ok ab T one J eps c (FI eps ltac:(cbn; auto)) V A) as X.
    destruct (ops_gravity _ _ _ _ _ _). inversion H; subst. apply X.
  - unfold q_ops_ExternalForces, with_J in E. destruct (shape _ _ _); [|discriminate].
    revert E. apply on_cache_op; auto. intros c c' z V A H. pose proof (oext_ok ab T one J fe eps c (FI eps ltac:(cbn; auto)) V A) as X.
    destruct (ops_external _ _ _ _ _ _ _). inversion H; subst. apply X.
  - unfold q_ops_Friction, with_J in E. destruct (Nat.ltb _ _); [discriminate|]. destruct (shape _ _ _); [|discriminate].
    revert E. apply on_cache_op; auto. intros c c' z V A H. pose proof (ofric_ok ab T one J tau eps stic c (FI eps ltac:(cbn; auto)) V A) as X.
    destruct (ops_friction _ _ _ _ _ _ _). inversion H; subst. apply X.
  - assert (X : forall c c' z, inv ab c -> opi one ab (ca_op c) -> ops_inverse_dynamics solve pinv ab J ddx N fe fe_empty o c = Ok (c', z) -> opi one ab (ca_op c')).
    { intros c c' z V A H. pose proof (oid_ok ab T one J ddx N fe fe_empty o c) as X. rewrite H in X. apply X; auto.
      - apply FI. cbn. auto.
      - intros Hc. apply FI. cbn. rewrite Hc. cbn. auto. }
    unfold q_ops_InverseDynamics, with_J in E. destruct (negb _); [discriminate|].
    destruct N as [[|]|]; [|destruct (shape (ab_dof ab) _ _); [|discriminate]|];
      (destruct (shape _ _ J); [|discriminate]); revert E; apply on_cache_op; auto.
  - revert E. apply on_cache_op; auto. intros c c' z V A. destruct (idx _ _); [|discriminate]. okinv. same.
  - revert E. apply on_cache_op; auto. intros c c' z V A. destruct (idx _ _); [|discriminate]. okinv. same.
  - revert E. apply on_cache_op; auto. intros c c' z V A. destruct (idx _ _) as [m|]; [|discriminate]. intros H.
    pose proof (op_oacc ab m off eps c) as X. destruct (oa_cc _ _ _ _ _ _). inversion H; subst. same.
  - revert E. apply on_cache_op; auto. intros c c' z V A. destruct (idx _ _) as [m|]; [|discriminate]. intros H.
    pose proof (op_oagrav ab m off fe eps c) as X. destruct (oa_gravity _ _ _ _ _ _ _). inversion H; subst. same.
Qed.
End OpsCache.
