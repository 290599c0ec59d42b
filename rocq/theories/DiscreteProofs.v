(** Coherence of the discrete-dynamics cache and of the variational integrator
    (C47, C48). *)
From Coq Require Import List Arith ZArith Bool Lia.
From Verif Require Import Scalar Base Spatial Joint Body Kin InvDyn FwdDyn Opspace OpspaceAba Deriv Sim Ops Discrete Specs SpecCache SpecDyn SpecDiscrete TreeProofs CacheProofs CacheOps OpsCache DiscreteCache.
Import ListNotations.

Section DiscreteProofs.
Context {S : Scal}.
Variable solve : list (list K) -> list K -> list K.
Variable pinv : list (list K) -> K -> list (list K) * bool.
Variable log6 : iso -> motion.
Variable dlog6 : iso -> i6.
Variable norm : list K -> K.
Local Notation momentum := (momentum log6 dlog6).
Local Notation discrete_id := (discrete_id log6 dlog6).
Local Notation newton := (newton solve log6 dlog6 norm).
Local Notation DID := (q_DiscreteID log6 dlog6).
Local Notation DI := (q_DiscreteIntegrate solve log6 dlog6 norm).
Local Notation dstep := (dstep solve pinv log6 dlog6 norm).
Local Notation drun := (drun solve pinv log6 dlog6 norm).
Local Notation dreached := (dreached solve pinv log6 dlog6 norm).

(** ** Values determined by the state and the previous configuration *)
Definition dTp (ab : body) (qp : list K) : arr iso :=
  tval ab (fun i => iso_mul (iso_inv (T_par_q ab i (qk qp i))) (tpv ab i))
          (fun i T => iso_mul (iso_mul (iso_inv (T_par_q ab i (qk qp i))) T) (tpv ab i)).
Definition dTn (ab : body) (qn : list K) : arr iso :=
  tval ab (fun i => iso_mul (iso_inv (tpv ab i)) (T_par_q ab i (qk qn i)))
          (fun i T => iso_mul (iso_mul (iso_inv (tpv ab i)) T) (T_par_q ab i (qk qn i))).
Definition impv (ab : body) (qp qn : list K) (dt : K) (fe : fmap) (i : nat) : force :=
  impulse (twv ab) fe dt (dTp ab qp i) (momentum ab dt i (dTp ab qp i)) (momentum ab dt i (dTn ab qn i)) i.
Definition dval (ab : body) (qp qn : list K) (dt : K) (fe : fmap) (grav : bool) (i : nat) : K :=
  let x := back ab (impv ab qp qn dt fe) i in
  if grav then kadd x (kmul dt (Gv ab i)) else x.
(** What is cached about the previous step is right. *)
Definition dri (ab : body) (d : drnea_data) : Prop :=
  is_qprev d = true -> is_prev d = true -> forall i, i < ab_dof ab ->
    d_Tprev d i = dTp ab (d_qprev d) i /\ d_pprev d i = momentum ab (d_dt d) i (dTp ab (d_qprev d) i).
(** The previous configuration that will be used. *)
Definition prevq (ab : body) (dt : K) (d : drnea_data) : list K :=
  if is_qprev d && keq (d_dt d) dt then d_qprev d
  else vec (ab_dof ab) (fun i => ksub (qk (ab_q ab) i) (kmul dt (qk (ab_dq ab) i))).

Section Robot.
Variable ab : body.
Hypothesis T : tree_ok ab.
Let n := ab_dof ab.

Lemma prev_loop Tp qp dt T0 p0 : (forall i, i < n -> Tp i = tpv ab i) ->
  forall i, i < n -> fst (for_up n (prev_step log6 dlog6 ab Tp qp dt) (T0, p0)) i = dTp ab qp i /\
                     snd (for_up n (prev_step log6 dlog6 ab Tp qp dt) (T0, p0)) i = momentum ab dt i (dTp ab qp i).
Proof.
  intros HT.
  apply (for_up_ind (fun m (s : arr iso * arr force) => forall i, i < m -> fst s i = dTp ab qp i /\ snd s i = momentum ab dt i (dTp ab qp i))).
  - intros i Hi. lia.
  - intros i [A p] Hi IH. cbn in IH. unfold prev_step.
    assert (X : to_prev ab Tp qp A i = dTp ab qp i).
    { unfold to_prev, dTp. rewrite tval_eq by auto. destruct (par ab i) as [k|] eqn:P; rewrite (HT i) by auto; [|reflexivity].
      pose proof (par_lt ab T i k Hi P). destruct (IH k) as [-> _]; [lia|]. reflexivity. }
    rewrite X. intros j Hj. cbn [fst snd]. unfold upd. destruct (Nat.eqb_spec j i) as [->|N]; [auto|]. apply IH. lia.
Qed.
Lemma next_loop Tp Tw qn dt fe Tv pv T0 p0 d0 : (forall i, i < n -> Tp i = tpv ab i) ->
  forall i, i < n -> let s := for_up n (next_step log6 dlog6 ab Tp Tw qn dt fe Tv pv) (T0, p0, d0) in
    fst (fst s) i = dTn ab qn i /\ snd (fst s) i = momentum ab dt i (dTn ab qn i) /\
    snd s i = impulse Tw fe dt (Tv i) (pv i) (momentum ab dt i (dTn ab qn i)) i.
Proof.
  intros HT i Hi s. revert i Hi. unfold s.
  apply (for_up_ind (fun m (s : arr iso * arr force * arr force) => forall i, i < m -> fst (fst s) i = dTn ab qn i /\ snd (fst s) i = momentum ab dt i (dTn ab qn i) /\
    snd s i = impulse Tw fe dt (Tv i) (pv i) (momentum ab dt i (dTn ab qn i)) i)).
  - intros i Hi. lia.
  - intros i [[A p] d] Hi IH. cbn in IH. unfold next_step.
    assert (X : from_next ab Tp qn A i = dTn ab qn i).
    { unfold from_next, dTn. rewrite tval_eq by auto. destruct (par ab i) as [k|] eqn:P; rewrite (HT i) by auto; [|reflexivity].
      pose proof (par_lt ab T i k Hi P). destruct (IH k) as [-> _]; [lia|]. reflexivity. }
    rewrite X. intros j Hj. cbn [fst snd]. unfold upd. destruct (Nat.eqb_spec j i) as [->|N]; [auto|]. apply IH. lia.
Qed.

Lemma inv_qprev dt c : inv ab c -> inv ab (ensure_qprev ab dt c).
Proof. intros V. unfold ensure_qprev. destruct (_ && _); [auto|apply inv_dr; auto]. Qed.
Lemma inv_prev dt c : inv ab c -> inv ab (ensure_prev log6 dlog6 ab dt c).
Proof. intros V. unfold ensure_prev. destruct (is_prev _); auto. destruct (for_up _ _ _). apply inv_dr. auto. Qed.
Lemma T_prev dt c : ca_T (ensure_prev log6 dlog6 ab dt c) = ca_T c.
Proof. unfold ensure_prev. destruct (is_prev _); auto. destruct (for_up _ _ _). auto. Qed.

(** One call: the value returned, and what the cache holds afterwards. *)
Record asked (qp qn : list K) (dt : K) (d : drnea_data) : Prop := {
  as_q : d_qprev d = qp; as_dt : d_dt d = dt; as_fq : is_qprev d = true; as_fp : is_prev d = true;
  as_prev : forall i, i < n -> d_Tprev d i = dTp ab qp i /\ d_pprev d i = momentum ab dt i (dTp ab qp i);
  as_next : forall i, i < n -> d_Tnext d i = dTn ab qn i /\ d_p d i = momentum ab dt i (dTn ab qn i)
}.
Lemma discrete_id_ok qn dt fe grav c : told_apart dt -> inv ab c -> dri ab (ca_dr c) ->
  let r := discrete_id ab qn dt fe grav c in let qp := prevq ab dt (ca_dr c) in
  inv ab (fst r) /\ asked qp qn dt (ca_dr (fst r)) /\
  forall i, i < n -> snd r i = dval ab qp qn dt fe grav i.
Proof.
  intros HD V D r qp. unfold r, Discrete.discrete_id. fold n.
  set (c1 := ensure_qprev ab dt c).
  assert (V1 : inv ab c1) by (apply inv_qprev; auto).
  assert (D1 : d_qprev (ca_dr c1) = qp /\ d_dt (ca_dr c1) = dt /\ is_qprev (ca_dr c1) = true /\
               (is_prev (ca_dr c1) = true -> forall i, i < n -> d_Tprev (ca_dr c1) i = dTp ab qp i /\ d_pprev (ca_dr c1) i = momentum ab dt i (dTp ab qp i))).
  { unfold c1, qp, ensure_qprev, prevq. destruct (is_qprev (ca_dr c) && keq (d_dt (ca_dr c)) dt) eqn:E.
    - apply andb_true_iff in E. destruct E as [E1 E2]. apply HD in E2. repeat split; auto; destruct (D E1 H i H0) as [X1 X2]; rewrite <- ?E2; auto.
    - cbn. repeat split; auto; discriminate. }
  clearbody c1.
  set (c2 := if Nat.ltb 0 n then ensure_Tp ab c1 else c1).
  assert (V2 : inv ab c2 /\ ca_dr c2 = ca_dr c1 /\ forall i, i < n -> is_Tp (ca_T c2) = true).
  { unfold c2. destruct (Nat.ltb_spec 0 n).
    - destruct (ensure_Tp_inv ab c1 V1) as [X1 X2]. split; [auto|]. split; [apply dr_Tp|]. auto.
    - split; [auto|]. split; [auto|]. lia. }
  clearbody c2. destruct V2 as (V2 & E2 & P2). rewrite <- E2 in D1.
  set (c3 := if has_ext ab fe then ensure_Tw ab c2 else c2).
  assert (V3 : inv ab c3 /\ ca_dr c3 = ca_dr c2 /\ (forall i, i < n -> c_Tp (ca_T c3) i = tpv ab i) /\
               (forall i x, i < n -> fe i = Some x -> c_Tw (ca_T c3) i = twv ab i)).
  { unfold c3. destruct (has_ext ab fe) eqn:HE.
    - destruct (ensure_Tw_inv ab T c2 V2) as [X1 X2]. split; [auto|]. split; [apply dr_Tw|]. split.
      + intros i Hi. rewrite ensure_Tw_Tp by eauto. apply (i_Tp _ _ V2); eauto.
      + intros i x Hi _. apply (i_Tw _ _ X1); auto.
    - split; [auto|]. split; [auto|]. split; [intros i Hi; apply (i_Tp _ _ V2); eauto|].
      intros i x Hi Hx. rewrite (has_ext_ok ab fe i x Hi Hx) in HE. discriminate. }
  clearbody c3. destruct V3 as (V3 & E3 & P3 & W3). rewrite <- E3 in D1. destruct D1 as (Q1 & Q2 & Q3 & Q4).
  set (c4 := ensure_prev log6 dlog6 ab dt c3).
  assert (V4 : inv ab c4) by (apply inv_prev; auto).
  assert (T4 : ca_T c4 = ca_T c3) by apply T_prev.
  assert (D4 : d_qprev (ca_dr c4) = qp /\ d_dt (ca_dr c4) = dt /\ is_qprev (ca_dr c4) = true /\ is_prev (ca_dr c4) = true /\
     forall i, i < n -> d_Tprev (ca_dr c4) i = dTp ab qp i /\ d_pprev (ca_dr c4) i = momentum ab dt i (dTp ab qp i)).
  { unfold c4, ensure_prev. destruct (is_prev (ca_dr c3)) eqn:E; [repeat split; auto; apply Q4; auto|].
    pose proof (prev_loop (c_Tp (ca_T c3)) (d_qprev (ca_dr c3)) dt (d_Tprev (ca_dr c3)) (d_pprev (ca_dr c3)) P3) as X. fold n.
    destruct (for_up n _ _) as [A p]. cbn in X |- *. rewrite Q1 in *. repeat split; auto; apply X; auto. }
  clearbody c4. destruct D4 as (R1 & R2 & R3 & R4 & R5). rewrite T4.
  pose proof (next_loop (c_Tp (ca_T c3)) (c_Tw (ca_T c3)) qn dt fe (d_Tprev (ca_dr c4)) (d_pprev (ca_dr c4))
                (d_Tnext (ca_dr c4)) (d_p (ca_dr c4)) (d_dp (ca_dr c4)) P3) as X.
  destruct (for_up n _ _) as [[A p] dp]. cbn [fst snd] in X.
  assert (Y : forall i, i < n -> dp i = impv ab qp qn dt fe i).
  { intros i Hi. destruct (X i Hi) as (_ & _ & ->). unfold impv. destruct (R5 i Hi) as [-> ->].
    unfold impulse. destruct (fe i) eqn:F; [|reflexivity]. rewrite (W3 i f) by auto. reflexivity. }
  pose proof (back_at ab T (c_Tp (ca_T c3)) dp (fun _ => k0) (impv ab qp qn dt fe)) as B. fold n in B.
  destruct (for_down n _ _) as [tau dp']. cbn [fst] in B.
  assert (B' : forall i, i < n -> tau i = back ab (impv ab qp qn dt fe) i) by (apply B; auto; intros i k Hi _; apply P3; auto).
  set (c5 := with_dr c4 _).
  assert (V5 : inv ab c5) by (apply inv_dr; auto).
  assert (A5 : asked qp qn dt (ca_dr c5)).
  { constructor; cbn; auto. intros i Hi. destruct (X i Hi) as (-> & -> & _). auto. }
  clearbody c5. unfold dval. destruct (grav && Nat.ltb 0 n) eqn:G; cbn [fst snd].
  - apply andb_true_iff in G. destruct G as [-> _]. destruct (ensure_grav_inv ab T c5 V5) as [V6 F6]. split; [auto|].
    split; [rewrite dr_grav; auto|]. intros i Hi. rewrite B' by auto. f_equal. f_equal. apply (i_grav _ _ V6); auto.
  - split; [auto|]. split; [auto|]. intros i Hi. destruct grav; [|apply B'; auto].
    rewrite andb_true_l in G. apply Nat.ltb_ge in G. lia.
Qed.
Lemma asked_dri qp qn dt d : asked qp qn dt d -> dri ab d.
Proof. intros [] _ _ i Hi. rewrite as_q0, as_dt0. auto. Qed.
Lemma asked_prevq qp qn dt d : keq dt dt = true -> asked qp qn dt d -> prevq ab dt d = qp.
Proof. intros E []. unfold prevq. rewrite as_fq0, as_dt0, E. auto. Qed.

(** The iteration. *)
Lemma newton_ok cap tau dt fe grav eps : told_apart dt -> keq dt dt = true -> forall qn c qp, inv ab c -> dri ab (ca_dr c) -> prevq ab dt (ca_dr c) = qp ->
  let '(c', qn', done) := newton cap ab tau dt fe grav eps qn c in
  inv ab c' /\ dri ab (ca_dr c') /\
  (List.length qn = n -> List.length qn' = n) /\
  (done = true -> asked qp qn' dt (ca_dr c') /\
     klt (norm (vec n (fun i => ksub (dval ab qp qn' dt fe grav i) (kmul dt (qk tau i))))) eps = true).
Proof.
  intros HD HR. induction cap as [|cap IH]; intros qn c qp V D Q; cbn [Discrete.newton].
  - split; [auto|]. split; [auto|]. split; [auto|]. discriminate.
  - fold n. destruct (discrete_id_ok qn dt fe grav c HD V D) as (V1 & A1 & X1). rewrite Q in *.
    destruct (discrete_id ab qn dt fe grav c) as [c1 x]. cbn [fst snd] in *.
    assert (E : vec n (fun i => ksub (x i) (kmul dt (qk tau i))) = vec n (fun i => ksub (dval ab qp qn dt fe grav i) (kmul dt (qk tau i)))).
    { apply vec_ext. intros i Hi. rewrite X1 by auto. reflexivity. }
    rewrite E. clear E. destruct (klt _ eps) eqn:HE.
    + split; [auto|]. split; [eapply asked_dri; eauto|]. split; auto.
    + destruct (ensure_crba_inv_inv ab T c1 V1) as [V2 _].
      match goal with |- context [Discrete.newton _ _ _ _ _ _ _ _ _ _ _ ?q (ensure_crba_inv ab c1)] => set (qn1 := q) end.
      assert (D2 : ca_dr (ensure_crba_inv ab c1) = ca_dr c1) by apply dr_crba_inv.
      specialize (IH qn1 (ensure_crba_inv ab c1) qp V2).
      rewrite D2 in IH. specialize (IH (asked_dri qp qn dt _ A1) (asked_prevq qp qn dt _ HR A1)).
      destruct (newton cap ab tau dt fe grav eps qn1 (ensure_crba_inv ab c1)) as [[c3 q3] done].
      destruct IH as (I1 & I2 & I3 & I4). split; [auto|]. split; [auto|]. split; [|auto]. intros _. apply I3. apply vec_length.
Qed.
End Robot.

(** ** Histories *)
(** What is remembered is what the velocity says. *)
Definition mless (ab : body) (d : drnea_data) : Prop :=
  is_qprev d = true -> d_qprev d = vec (ab_dof ab) (fun i => ksub (qk (ab_q ab) i) (kmul (d_dt d) (qk (ab_dq ab) i))).
Definition dinv (ab : body) : Prop := exists c, ab_cache ab = Some c /\ dri ab (ca_dr c) /\ mless ab (ca_dr c).

Lemma dinv_keeps ab ab' c' : keeps_dr ab ab' -> ab' = set_cache ab (Some c') -> dinv ab -> dinv ab'.
Proof.
  intros Kd -> (c & E & D). destruct (Kd c E) as (c1 & E1 & E2). cbn in E1. inversion E1; subst c1.
  exists c'. split; [reflexivity|]. rewrite E2. exact D.
Qed.
Lemma dinv_set_q q ab ab' : dinv ab -> set_q q ab = Ret ab' tt -> dinv ab'.
Proof.
  intros (c & E & D) H. unfold set_q in H. destruct (negb _); [discriminate|]. destruct (negb _); [discriminate|].
  destruct (veqb _ _); inversion H; subst; clear H; [exists c; auto|]. unfold dinv. cbn. rewrite E. eexists. split; [reflexivity|].
  split; intros X; discriminate X.
Qed.
Lemma dinv_set_dq q ab ab' : dinv ab -> set_dq q ab = Ret ab' tt -> dinv ab'.
Proof.
  intros (c & E & D) H. unfold set_dq in H. destruct (negb _); [discriminate|]. destruct (negb _); [discriminate|].
  destruct (veqb _ _); inversion H; subst; clear H; [exists c; auto|]. unfold dinv. cbn. rewrite E. eexists. split; [reflexivity|].
  split; intros X; discriminate X.
Qed.
Lemma dinv_put io q dq ab ab' : dinv ab -> put io q dq ab = Ok ab' -> dinv ab'.
Proof.
  intros D H. apply put_inv in H. destruct H as (q' & ab1 & dq' & E1 & E2). eapply dinv_set_dq; [|exact E2]. eapply dinv_set_q; eauto.
Qed.
Lemma ask_keeps q ab ab' x : ask solve pinv q ab = Ok (ab', x) -> dinv ab -> dinv ab'.
Proof.
  intros E. pose proof (ask_frame solve pinv q ab ab' x E) as [c' X]. pose proof (ask_dr solve pinv q ab ab' x E). eapply dinv_keeps; eauto.
Qed.
Lemma step_ask q ab ab' : step solve pinv (OAsk q) ab = Some ab' -> ab' = ab \/ exists q' x, ask solve pinv q' ab = Ok (ab', x).
Proof.
  cbn [step]. destruct (ask solve pinv q ab) as [[a1 x]| |] eqn:Q; try discriminate.
  - intros H. inversion H; subst. eauto.
  - destruct q; try (intros H; inversion H; auto; fail).
    destruct (q_ops_InverseDynamics _ _ _ _ _ _ _ _ _) as [[a1 y]| |] eqn:Q2; try discriminate. intros H. inversion H; subst.
    right. eexists (QoID _ ddx None fe fe_empty _), _. cbn. rewrite Q2. cbn. reflexivity.
Qed.
Lemma dinv_step o ab ab' : dinv ab -> step solve pinv o ab = Some ab' -> dinv ab'.
Proof.
  intros D E. destruct o; try (cbn [step] in E).
  - destruct (add_rigid_body rb p ab) as [a1 id|a1|] eqn:Q; cbn in E; inversion E; subst; [|apply add_exn in Q; subst; auto].
    unfold add_rigid_body in Q. destruct (_ || _)%Z; [discriminate|]. inversion Q; subst; clear Q.
    destruct D as (c & Ec & _). unfold dinv. cbn. rewrite Ec. eexists. split; [reflexivity|]. split; intros X; discriminate X.
  - destruct (set_q q ab) as [a1 []|a1|] eqn:Q; cbn in E; inversion E; subst; [|apply set_q_exn in Q; subst; auto]. eapply dinv_set_q; eauto.
  - destruct (set_dq dq ab) as [a1 []|a1|] eqn:Q; cbn in E; inversion E; subst; [|apply set_dq_exn in Q; subst; auto]. eapply dinv_set_dq; eauto.
  - cbn in E. inversion E; subst; clear E. destruct D as (c & Ec & V). unfold dinv. cbn. rewrite Ec. eexists. split; [reflexivity|]. exact V.
  - unfold add_load, set_loads in E. destruct (ab_cache ab) eqn:Ec0; cbn in E; inversion E; subst; clear E.
    destruct D as (c0 & Ec & V1 & V2). assert (c0 = c) by congruence. subst. eexists. split; [reflexivity|]. split; [intros _ X; discriminate X|exact V2].
  - unfold replace_load, set_loads in E. destruct (ab_cache ab) eqn:Ec0; cbn in E; inversion E; subst; clear E.
    destruct D as (c0 & Ec & V1 & V2). assert (c0 = c) by congruence. subst. eexists. split; [reflexivity|]. split; [intros _ X; discriminate X|exact V2].
  - unfold clear_load, set_loads in E. destruct (ab_cache ab) eqn:Ec0; cbn in E; inversion E; subst; clear E.
    destruct D as (c0 & Ec & V1 & V2). assert (c0 = c) by congruence. subst. eexists. split; [reflexivity|]. split; [intros _ X; discriminate X|exact V2].
  - cbn in E. inversion E; subst; clear E. exact D.
  - destruct (set_inertia_base I ab) as [a1 []|a1|] eqn:Q; cbn in E; inversion E; subst; [|apply set_inertia_base_exn in Q; subst; auto].
    unfold set_inertia_base in Q. destruct (klt _ _); [discriminate|]. inversion Q; subst; clear Q. exact D.
  - unfold body_copy in E. destruct D as (c & Ec & V). rewrite Ec in E. inversion E; subst; clear E. exists c. split; [reflexivity|exact V].
  - destruct (integrate _ _ _ _) as [a1| |] eqn:Q; inversion E; subst; clear E.
    eapply (integrate_ind dinv); [| |exact D|exact Q].
    + intros a a' x Da F. unfold sim_fd in F. destruct aba.
      * eapply (ask_keeps (QAba tau fe o) a a' (AVec x)); auto. cbn. rewrite F. reflexivity.
      * eapply (ask_keeps (QFD tau fe o) a a' (AVec x)); auto. cbn. rewrite F. reflexivity.
    + intros a a' x y Da F. eapply dinv_put; eauto.
  - apply step_ask in E. destruct E as [->|(q' & x & E)]; auto. eapply ask_keeps; eauto.
Qed.

(** Asking. *)
Lemma did_inv qn dt fe grav ab ab' v : told_apart dt -> tree_ok ab -> wfc ab -> dinv ab ->
  DID qn dt fe grav ab = Ok (ab', v) -> tree_ok ab' /\ wfc ab' /\ dinv ab'.
Proof.
  intros HD T (c0 & E0 & V) (c & E & D & M) H. assert (c0 = c) by congruence. subst c0. unfold q_DiscreteID in H.
  destruct (Nat.ltb _ _); [discriminate|]. unfold on_cache in H. rewrite E in H.
  destruct (discrete_id_ok ab T qn dt fe grav c HD V D) as (V1 & A1 & _).
  destruct (discrete_id ab qn dt fe grav c) as [c1 x]. cbn in *. inversion H; subst; clear H.
  split; [apply tree_set_cache; auto|]. split; [exists c1; split; [reflexivity|]; eapply inv_same_state; [|exact V1]; apply same_set_cache|].
  exists c1. split; [reflexivity|]. split; [exact (asked_dri ab _ _ _ _ A1)|].
  intros _. rewrite (as_q _ _ _ _ _ A1), (as_dt _ _ _ _ _ A1). unfold prevq. destruct (_ && _) eqn:B; [|reflexivity].
  apply andb_true_iff in B. destruct B as [B1 B2]. apply HD in B2. rewrite (M B1), B2. reflexivity.
Qed.
Lemma did_out qn dt fe grav ab c : told_apart dt -> tree_ok ab -> ab_cache ab = Some c -> inv ab c -> dri ab (ca_dr c) ->
  outcome (DID qn dt fe grav ab) = if Nat.ltb (List.length qn) (ab_dof ab) then UB
    else Ok (vec (ab_dof ab) (dval ab (prevq ab dt (ca_dr c)) qn dt fe grav)).
Proof.
  intros HD T E V D. unfold q_DiscreteID. destruct (Nat.ltb _ _); [reflexivity|]. rewrite outcome_on_cache, E.
  destruct (discrete_id_ok ab T qn dt fe grav c HD V D) as (V1 & A1 & X1).
  destruct (discrete_id ab qn dt fe grav c) as [c1 x]. cbn in *. f_equal. apply vec_ext. exact X1.
Qed.
Lemma dinv_new name mem : dinv (body_new name mem).
Proof. eexists. split; [reflexivity|]. split; intros X; discriminate X. Qed.

Lemma drun_inv {AC : AddComm S} h : forall b ab ab', tree_ok ab -> P b ab -> dinv ab -> dbase_fixed b h = true ->
  no_integration h = true -> dts_ok h -> drun h ab = Some ab' -> tree_ok ab' /\ wfc ab' /\ dinv ab'.
Proof.
  induction h as [|o h IH]; intros b ab ab' T W D Hb Hn Hd E.
  - inversion E; subst. split; [auto|]. split; [eapply P_wfc; eauto|auto].
  - cbn [Discrete.drun] in E. destruct (dstep o ab) as [a1|] eqn:Q; [|discriminate]. cbn [no_integration forallb] in Hn.
    apply andb_true_iff in Hn. destruct Hn as [Hn1 Hn]. destruct o as [o|qn dt fe grav|]; [| |discriminate].
    + assert (X : negb (b && moves_base o) = true /\ dbase_fixed (b || asks o) h = true).
      { destruct o; cbn in *; rewrite ?andb_false_r, ?orb_false_r, ?orb_true_r in *; auto.
        apply andb_true_iff in Hb. destruct Hb. destruct b; auto; discriminate. }
      destruct X as [X1 X2]. cbn in Q. eapply (IH (b || asks o)); [eapply tree_step; eauto|eapply P_step; eauto|eapply dinv_step; eauto|auto|auto|auto|auto].
    + cbn in Q, Hd, Hb. destruct (DID qn dt fe grav ab) as [[a2 v]| |] eqn:Q2; inversion Q; subst a2; clear Q.
      destruct Hd as [Hd1 Hd]. destruct (did_inv _ _ _ _ _ _ _ Hd1 T (P_wfc _ _ W) D Q2) as (T1 & W1 & D1).
      eapply (IH true); eauto.
Qed.
Lemma dreached_inv {AC : AddComm S} h ab : dreached h ab -> dbase_fixed false h = true -> no_integration h = true -> dts_ok h ->
  tree_ok ab /\ wfc ab /\ dinv ab.
Proof.
  intros (name & mem & R) Hb Hn Hd. eapply (drun_inv h false); [apply (tree_new name mem)| |apply dinv_new|exact Hb|exact Hn|exact Hd|exact R].
  exists (all_clear mem). split; [reflexivity|]. intros. apply inv_all_clear.
Qed.
Lemma dri_clear ab mem : dri ab (ca_dr (all_clear mem)).
Proof. intros X; discriminate X. Qed.
Lemma mless_prevq ab dt d : told_apart dt -> mless ab d ->
  prevq ab dt d = vec (ab_dof ab) (fun i => ksub (qk (ab_q ab) i) (kmul dt (qk (ab_dq ab) i))).
Proof.
  intros HD M. unfold prevq. destruct (_ && _) eqn:B; [|reflexivity]. apply andb_true_iff in B. destruct B as [B1 B2].
  apply HD in B2. rewrite (M B1), B2. reflexivity.
Qed.
Lemma c47_fresh {AC : AddComm S} h ab mem qn dt fe grav : dreached h ab -> dbase_fixed false h = true -> no_integration h = true ->
  dts_ok h -> told_apart dt -> outcome (DID qn dt fe grav ab) = outcome (DID qn dt fe grav (cold ab mem)).
Proof.
  intros R Hb Hn Hd Ht. destruct (dreached_inv h ab R Hb Hn Hd) as (T & (c0 & E0 & V) & (c & E & D & M)). assert (c0 = c) by congruence. subst c0.
  rewrite (did_out qn dt fe grav ab c) by auto. rewrite (mless_prevq ab dt _ Ht M).
  rewrite (did_out qn dt fe grav (cold ab mem) (all_clear mem)); [|auto|apply cold_tree; auto|reflexivity|apply inv_all_clear|apply dri_clear].
  rewrite (mless_prevq (cold ab mem) dt) by (auto; intros X; discriminate X). reflexivity.
Qed.

(** ** Integrating *)
Definition ready (dt : K) (qp : list K) (ab : body) : Prop :=
  tree_ok ab /\ exists c, ab_cache ab = Some c /\ inv ab c /\ dri ab (ca_dr c) /\ prevq ab dt (ca_dr c) = qp.
Lemma set_q_val {E : EqSound S} q ab c ab' : ab_cache ab = Some c -> set_q q ab = Ret ab' tt ->
  exists c', ab_cache ab' = Some c' /\ ab_q ab' = q /\ ca_dr c' = (if veqb (ab_q ab) q then ca_dr c else ca_dr (all_clear c)).
Proof.
  intros Ec H. unfold set_q in H. destruct (negb _); [discriminate|]. destruct (negb _); [discriminate|].
  destruct (veqb _ _) eqn:V; inversion H; subst; clear H; cbn.
  - exists c. split; [auto|]. split; [apply veqb_sound; auto|]. reflexivity.
  - rewrite Ec. eexists. repeat split.
Qed.
Lemma set_dq_val {E : EqSound S} q ab c ab' : ab_cache ab = Some c -> set_dq q ab = Ret ab' tt ->
  exists c', ab_cache ab' = Some c' /\ ab_dq ab' = q /\ ca_dr c' = (if veqb (ab_dq ab) q then ca_dr c else ca_dr (clear_qprev c)).
Proof.
  intros Ec H. unfold set_dq in H. destruct (negb _); [discriminate|]. destruct (negb _); [discriminate|].
  destruct (veqb _ _) eqn:V; inversion H; subst; clear H; cbn.
  - exists c. split; [auto|]. split; [apply veqb_sound; auto|]. reflexivity.
  - rewrite Ec. eexists. repeat split.
Qed.
Lemma dint_ok {E : EqSound S} tau dt fe grav eps cap qp ab ab' : told_apart dt -> keq dt dt = true -> ready dt qp ab ->
  DI tau dt fe grav eps cap ab = Ok (ab', true) ->
  ready dt (ab_q ab) ab' /\
  ab_dof ab' = ab_dof ab /\ ab_rbs ab' = ab_rbs ab /\ List.length (ab_q ab') = ab_dof ab /\
  ab_g ab' = ab_g ab /\ ab_loads ab' = ab_loads ab /\ ab_Tbase ab' = ab_Tbase ab /\ ab_anc ab' = ab_anc ab /\ ab_sub ab' = ab_sub ab /\
  ab_dq ab' = vec (ab_dof ab) (fun i => kdiv (ksub (qk (ab_q ab') i) (qk qp i)) (kmul (klit 2 1) dt)) /\
  klt (norm (vec (ab_dof ab) (fun i => ksub (dval ab qp (ab_q ab') dt fe grav i) (kmul dt (qk tau i))))) eps = true.
Proof.
  intros HD HR (T & c & Ec & V & D & Q) H. unfold q_DiscreteIntegrate in H. destruct (Nat.eqb _ _); [|discriminate]. rewrite Ec in H.
  pose proof (forward_dynamics_inv solve ab T tau fe (fd_options grav) c V) as V1.
  pose proof (dr_fd solve ab tau fe (fd_options grav) c) as D1.
  destruct (forward_dynamics solve ab tau fe (fd_options grav) c) as [c1 a]. cbn [fst] in V1, D1.
  match type of H with context [Discrete.newton _ _ _ _ _ _ _ _ _ _ _ ?x c1] => set (q0 := x) in H end.
  assert (L0 : List.length q0 = ab_dof ab) by apply vec_length. clearbody q0.
  rewrite <- D1 in D, Q.
  pose proof (newton_ok ab T cap tau dt fe grav eps HD HR q0 c1 qp V1 D Q) as X.
  destruct (newton cap ab tau dt fe grav eps q0 c1) as [[c2 qn] done]. destruct X as (V2 & _ & L2 & X). specialize (L2 L0).
  set (ab2 := set_cache ab (Some c2)) in H.
  assert (T2 : tree_ok ab2) by (apply tree_set_cache; auto).
  assert (W2 : wfc ab2) by (exists c2; split; [reflexivity|]; eapply inv_same_state; [|exact V2]; apply same_set_cache).
  unfold bind at 1 in H. destruct (set_q qn ab2) as [ab3 []|?|] eqn:Sq; cbn [called] in H; try discriminate.
  unfold bind at 1 in H. destruct (set_dq _ ab3) as [ab4 []|?|] eqn:Sd in H; cbn [called] in H; try discriminate.
  pose proof (tree_set_q _ _ _ T2 Sq) as T3. pose proof (tree_set_dq _ _ _ T3 Sd) as T4.
  pose proof (inv_set_q _ _ _ W2 Sq) as W3. pose proof (inv_set_dq _ _ _ W3 Sd) as W4.
  destruct (set_q_val qn ab2 c2 ab3 eq_refl Sq) as (c3 & Ec3 & Q3 & D3).
  destruct (set_dq_val _ ab3 c3 ab4 Ec3 Sd) as (c4 & Ec4 & Q4 & D4).
  destruct (set_q_frame _ _ _ Sq) as ((F1 & F2 & F3 & F4 & F5) & F6 & _).
  destruct (set_dq_frame _ _ _ Sd) as ((G1 & G2 & G3 & G4 & G5) & G6 & _).
  rewrite Ec4 in H. inversion H; subst ab' done; clear H. destruct (X eq_refl) as [A Hn]. clear X.
  assert (R : d_dt (ca_dr c4) = dt /\ (forall i, i < ab_dof ab -> d_Tnext (ca_dr c4) i = dTn ab qn i /\ d_p (ca_dr c4) i = momentum ab dt i (dTn ab qn i))).
  { assert (Y : d_dt (ca_dr c4) = d_dt (ca_dr c2) /\ d_Tnext (ca_dr c4) = d_Tnext (ca_dr c2) /\ d_p (ca_dr c4) = d_p (ca_dr c2)).
    { rewrite D4. destruct (veqb (ab_dq ab3) _); cbn; rewrite D3; destruct (veqb (ab_q ab2) qn); repeat split. }
    destruct Y as (-> & -> & ->). split; [apply A|]. apply (as_next _ _ _ _ _ A). }
  destruct R as [R1 R2].
  cbn [ab_q set_cache]. rewrite G6, Q3.
  split.
  - split; [apply tree_set_cache; auto|]. exists (shift (ab_q ab) c4). split; [reflexivity|].
    destruct W4 as (c4' & E4' & V4). assert (c4' = c4) by congruence. subst c4'.
    split; [apply inv_dr; eapply inv_same_state; [|exact V4]; apply same_set_cache|]. split.
    + intros _ _ i Hi. cbn [ab_dof set_cache] in Hi. rewrite <- G1, <- F1 in Hi. cbn in Hi. destruct (R2 i Hi) as [R3 R4].
      cbn [ca_dr shift with_dr d_Tprev d_pprev d_qprev d_dt].
      assert (Z : dTp (set_cache ab4 (Some (shift (ab_q ab) c4))) (ab_q ab) i = dTn ab qn i).
      { unfold dTp, dTn, tval, tpv, T_par_q, par, rb_at. cbn [ab_rbs ab_q set_cache]. rewrite G6, Q3, <- G2, <- F2. reflexivity. }
      rewrite Z, R3, R4, R1. split; [reflexivity|]. unfold Discrete.momentum, rb_at. cbn [ab_rbs set_cache]. rewrite <- G2, <- F2. reflexivity.
    + unfold prevq. cbn. rewrite R1, HR. reflexivity.
  - cbn [ab_dof ab_rbs ab_g ab_loads ab_Tbase ab_anc ab_sub set_cache ab_dq].
    destruct F5 as (F7 & F8 & F9 & _), G5 as (G7 & G8 & G9 & _).
    split; [rewrite <- G1, <- F1; reflexivity|]. split; [rewrite <- G2, <- F2; reflexivity|]. split; [exact L2|].
    split; [rewrite <- G7, <- F7; reflexivity|]. split; [rewrite <- G8, <- F8; reflexivity|]. split; [rewrite <- G9, <- F9; reflexivity|].
    split; [rewrite <- G3, <- F3; reflexivity|]. split; [rewrite <- G4, <- F4; reflexivity|]. split; [|exact Hn].
    rewrite Q4. rewrite (as_q _ _ _ _ _ A). reflexivity.
Qed.
End DiscreteProofs.
