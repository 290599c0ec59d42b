(** The simulator application (C63): its loop. *)
From Coq Require Import List Arith ZArith Bool String Ascii Lia Field.
From Verif Require Import Scalar Base Spatial Joint Body Kin InvDyn FwdDyn Opspace OpspaceAba Deriv Sim Ops Control Discrete Json App Specs SpecCache SpecKin SpecDyn SpecOps SpecControl SpecDiscrete SpecHold SpecApp
  TreeProofs CacheProofs CacheOps DynProofs DynApi OpsCache OpsApi BigSum OpsAlg OpsTask ControlProofs TwinProofs DiscreteCache DiscreteProofs DiscreteTravel DiscreteStill HoldProofs AppProofs.
Import ListNotations.
Local Open Scope nat_scope.

Section Loop.
Context {S : Scal} {L : ScalLaws S} {ES : EqSound S}.
Add Field kf : (@kfield S L).
Variable solve : list (list K) -> list K -> list K.
Variable pinv : list (list K) -> K -> list (list K) * bool.
Variable log6 : iso -> motion.
Variable dlog6 : iso -> i6.
Variable norm : list K -> K.
Variable pd_pos : v3 -> v3 -> list K -> K * K -> list K.
Variable pd_ori : m3 -> m3 -> list K -> K * K -> list K.
Variable pd_joint : list K -> list K -> list K -> K * K -> list K.
Local Open Scope k_scope.
#[local] Instance comm_app : AddComm S := laws_comm.
Local Notation good := (good solve pinv (fun _ => True)).
Local Notation DI := (q_DiscreteIntegrate solve log6 dlog6 norm).
Local Notation control := (app_control solve pinv pd_pos pd_ori pd_joint).
Local Notation app_step := (app_step solve pinv log6 dlog6 norm pd_pos pd_ori pd_joint).
Local Notation app_loop := (app_loop solve pinv log6 dlog6 norm pd_pos pd_ori pd_joint).

(** Discrete integration leaves the other caches in order. *)
Lemma op_qprev ab dt c : ca_op (ensure_qprev ab dt c) = ca_op c.
Proof. unfold ensure_qprev. destruct (_ && _); reflexivity. Qed.
Lemma op_prev ab dt c : ca_op (ensure_prev log6 dlog6 ab dt c) = ca_op c.
Proof. unfold ensure_prev. destruct (is_prev _); auto. destruct (for_up _ _ _). reflexivity. Qed.
Lemma did_keeps ab qn dt fe grav c : tree_ok ab -> inv ab c ->
  let c' := fst (discrete_id log6 dlog6 ab qn dt fe grav c) in inv ab c' /\ ca_op c' = ca_op c.
Proof.
  intros T V. unfold discrete_id.
  set (c1 := ensure_qprev ab dt c). assert (V1 : inv ab c1) by (apply inv_qprev; auto). assert (O1 : ca_op c1 = ca_op c) by apply op_qprev. clearbody c1.
  set (c2 := if Nat.ltb 0 (ab_dof ab) then ensure_Tp ab c1 else c1).
  assert (X2 : inv ab c2 /\ ca_op c2 = ca_op c) by (unfold c2; destruct (Nat.ltb _ _); [split; [apply ensure_Tp_inv; auto|rewrite op_Tp; auto]|auto]). clearbody c2. destruct X2 as [V2 O2].
  set (c3 := if has_ext ab fe then ensure_Tw ab c2 else c2).
  assert (X3 : inv ab c3 /\ ca_op c3 = ca_op c) by (unfold c3; destruct (has_ext ab fe); [split; [apply ensure_Tw_inv; auto|rewrite op_Tw; auto]|auto]). clearbody c3. destruct X3 as [V3 O3].
  set (c4 := ensure_prev log6 dlog6 ab dt c3). assert (V4 : inv ab c4) by (apply inv_prev; auto). assert (O4 : ca_op c4 = ca_op c) by (unfold c4; rewrite op_prev; auto). clearbody c4.
  destruct (for_up _ _ _) as [[A p] dp]. destruct (for_down _ _ _) as [tau dp'].
  destruct (grav && _); cbn [fst].
  - rewrite op_grav. split; [|auto]. apply ensure_grav_inv; auto. apply inv_dr; auto.
  - split; [apply inv_dr; auto|auto].
Qed.
Lemma newton_keeps ab : tree_ok ab -> forall cap tau dt fe grav eps qn c, inv ab c ->
  let c' := fst (fst (newton solve log6 dlog6 norm cap ab tau dt fe grav eps qn c)) in inv ab c' /\ ca_op c' = ca_op c.
Proof.
  intros T. induction cap as [|cap IH]; intros tau dt fe grav eps qn c V; cbn [newton]; [auto|].
  destruct (did_keeps ab qn dt fe grav c T V) as [V1 O1]. destruct (discrete_id log6 dlog6 ab qn dt fe grav c) as [c1 x]. cbn [fst] in V1, O1.
  destruct (klt _ eps); [auto|]. destruct (ensure_crba_inv_inv ab T c1 V1) as [V2 _].
  match goal with |- context [newton _ _ _ _ cap ab tau dt fe grav eps ?q ?c2] => destruct (IH tau dt fe grav eps q c2 V2) as [V3 O3] end.
  split; [exact V3|]. rewrite O3, op_crba_inv. exact O1.
Qed.
Lemma wop_shift one q ab c : ab_cache ab = Some c -> wop solve pinv one ab -> wop solve pinv one (set_cache ab (Some (shift q c))).
Proof.
  intros E (c' & E' & O). assert (c' = c) by congruence. subst c'. eexists. split; [reflexivity|]. eapply opi_mass; [|exact O]. repeat split.
Qed.
Lemma good_dint tau dt fe grav eps cap a a' d : good a -> DI tau dt fe grav eps cap a = Ok (a', d) -> good a'.
Proof.
  intros [T W O O0 _] H. unfold q_DiscreteIntegrate in H. destruct (Nat.eqb _ _); [|discriminate]. destruct W as (c & Ec & V). rewrite Ec in H.
  pose proof (forward_dynamics_inv solve a T tau fe (fd_options grav) c V) as V1. pose proof (op_fd solve a tau fe (fd_options grav) c) as O1.
  destruct (forward_dynamics solve a tau fe (fd_options grav) c) as [c1 x]. cbn [fst] in V1, O1.
  match type of H with context [newton _ _ _ _ cap a tau dt fe grav eps ?q c1] => destruct (newton_keeps a T cap tau dt fe grav eps q c1 V1) as [V2 O2]; destruct (newton solve log6 dlog6 norm cap a tau dt fe grav eps q c1) as [[c2 qn] done] end.
  cbn [fst] in V2, O2. set (a2 := set_cache a (Some c2)) in H.
  assert (T2 : tree_ok a2) by (apply tree_set_cache; auto).
  assert (W2 : wfc a2) by (exists c2; split; [reflexivity|]; eapply inv_same_state; [|exact V2]; apply same_set_cache).
  assert (OX : forall one, wop solve pinv one a -> wop solve pinv one a2).
  { intros one (c0 & E0 & X). assert (c0 = c) by congruence. subst c0. exists c2. split; [reflexivity|]. rewrite O2, O1. eapply opi_mass; [|exact X]. repeat split. }
  unfold bind at 1 in H. destruct (set_q qn a2) as [a3 []|?|] eqn:Sq; cbn [called] in H; try discriminate.
  unfold bind at 1 in H. destruct (set_dq _ a3) as [a4 []|?|] eqn:Sd in H; cbn [called] in H; try discriminate.
  destruct (ab_cache a4) as [c4|] eqn:E4; [|discriminate]. inversion H; subst a' d; clear H.
  pose proof (tree_set_dq _ _ _ (tree_set_q _ _ _ T2 Sq) Sd) as T4. pose proof (inv_set_dq _ _ _ (inv_set_q _ _ _ W2 Sq) Sd) as W4.
  assert (OY : forall one, wop solve pinv one a -> wop solve pinv one a4) by (intros one X; eapply wop_set_dq; [|exact Sd]; eapply wop_set_q; [|exact Sq]; auto).
  constructor; auto.
  - apply tree_set_cache; auto.
  - destruct W4 as (c' & E' & V4). assert (c' = c4) by congruence. subst c'. eexists. split; [reflexivity|]. apply inv_dr. eapply inv_same_state; [|exact V4]. apply same_set_cache.
  - apply wop_shift; auto.
  - apply wop_shift; auto.
Qed.
Lemma good_step t s s' f : good (a_ab s) -> app_step t s = Ok (s', f) -> good (a_ab s').
Proof.
  intros G E. rewrite step_exec in E. destruct (exec solve pinv _ _) as [[a1 [[[[tau x] R] fe] key]]| |] eqn:E1; try discriminate. cbn [bind] in E.
  destruct (DI tau _ _ _ _ _ a1) as [[a2 d]| |] eqn:E2; try discriminate. cbn [bind] in E. inversion E; subst; clear E. cbn [a_ab].
  eapply good_dint; [|exact E2]. apply (proj1 (exec_good solve pinv _ (step_safe pd_pos pd_ori pd_joint _ _ _ _ _ _ _ _) _ _ _ G E1)).
Qed.
Lemma good_loop ts : forall s fs s', good (a_ab s) -> app_loop ts s = Ok (fs, Some s') -> good (a_ab s').
Proof.
  induction ts as [|t ts IH]; intros s fs s' G E; cbn [App.app_loop] in E; [inversion E; subst; auto|].
  destruct (app_step t s) as [[s1 f]| |] eqn:E1; try discriminate. destruct (app_loop ts s1) as [[fs1 e]| |] eqn:E2; try discriminate. cbn [bind] in E. inversion E; subst; clear E.
  eapply IH; [|exact E2]. eapply good_step; eauto.
Qed.
Lemma c63_fresh h s ts fs s' t mem : reached solve pinv h (a_ab s) -> base_fixed false h = true -> one_threshold 0 h ->
  app_loop ts s = Ok (fs, Some s') ->
  outcome (control t (a_q s') (a_x s') (a_R s') (a_ab s')) = outcome (control t (a_q s') (a_x s') (a_R s') (cold (a_ab s') mem)) /\
  forall i, outcome (compute_external_forces i (a_ab s')) = outcome (compute_external_forces i (cold (a_ab s') mem)).
Proof.
  intros R B OT E. assert (G : good (a_ab s')) by (eapply good_loop; [|exact E]; eapply good_reached; eauto).
  split.
  - rewrite !control_exec. apply (exec_fresh solve pinv _ (a_ab s') mem (control_safe pd_pos pd_ori pd_joint _ _ _ _ _ _ _) G).
  - intros i. rewrite !(forces_exec solve pinv). apply (exec_fresh solve pinv _ (a_ab s') mem (forces_safe _ _) G).
Qed.

(** The motion. *)
Local Notation ready := (ready log6 dlog6).
Lemma obeys_ext dt mem : forall l l' qp ab abs,
  map (fun x => (l_tau x, l_fe x, l_grav x, l_eps x)) l = map (fun x => (l_tau x, l_fe x, l_grav x, l_eps x)) l' ->
  obeys log6 dlog6 norm dt mem qp ab l abs -> obeys log6 dlog6 norm dt mem qp ab l' abs.
Proof.
  induction l as [|x l IH]; intros [|y l'] qp ab abs E H; try discriminate; [exact H|]. cbn [map] in E. inversion E as [[E1 E2 E3 E4 E5]].
  destruct abs as [|b abs]; [destruct H|]. cbn [obeys] in *. rewrite <- E1, <- E2, <- E3, <- E4. destruct H as (H1 & H2 & H3 & H4 & H5 & H6). repeat split; auto.
Qed.
Lemma loop_travel dt ts : (forall t, In t ts -> t_dt t = dt) -> forall s fs e, app_loop ts s = Ok (fs, e) -> (forall f, In f fs -> f_done f = true) ->
  exists legs abs, travel solve pinv log6 dlog6 norm dt legs (a_ab s) = Some abs /\
    map (fun x => (l_tau x, l_fe x, l_grav x, l_eps x)) legs = map (fun x => (l_tau x, l_fe x, l_grav x, l_eps x)) (legs_of fs) /\
    map ab_q abs = map f_q fs /\ map ab_dq abs = map f_dq fs.
Proof.
  induction ts as [|t ts IH]; intros Hd s fs e E D; cbn [App.app_loop] in E.
  - inversion E; subst. exists [], []. auto.
  - destruct (app_step t s) as [[s1 f]| |] eqn:E1; try discriminate; [|inversion E; subst; exists [], []; auto].
    destruct (app_loop ts s1) as [[fs1 e1]| |] eqn:E2; try discriminate. cbn [bind] in E. inversion E; subst; clear E.
    destruct (IH ltac:(intros; apply Hd; right; auto) s1 fs1 e E2 ltac:(intros; apply D; right; auto)) as (legs & abs & I1 & I2 & I3 & I4).
    specialize (D f (or_introl eq_refl)). rewrite step_exec in E1. destruct (exec solve pinv _ _) as [[a1 [[[[tau x] R] fe] key]]| |] eqn:E3; try discriminate. cbn [bind] in E1.
    destruct (DI tau _ _ _ _ _ a1) as [[a2 d]| |] eqn:E4; try discriminate. cbn [bind] in E1. inversion E1; subst; clear E1. cbn in D. subst d. cbn [a_ab] in I1.
    destruct (exec_run solve pinv _ _ _ _ E3) as [qs Q].
    exists (Leg qs tau fe true variational_epsilon max_iterations :: legs), (a2 :: abs). split; [|split; [|split]].
    + cbn [travel l_before l_tau l_fe l_grav l_eps l_cap]. rewrite Q, <- (Hd t (or_introl eq_refl)), E4. rewrite (Hd t (or_introl eq_refl)), I1. reflexivity.
    + cbn [map legs_of]. f_equal. exact I2.
    + cbn [map f_q]. f_equal. exact I3.
    + cbn [map f_dq]. f_equal. exact I4.
Qed.
Lemma run_dop h : forall ab ab', run solve pinv h ab = Some ab' -> drun solve pinv log6 dlog6 norm (map DOp h) ab = Some ab'.
Proof. induction h as [|o h IH]; intros ab ab' E; cbn in *; [auto|]. destruct (step solve pinv o ab); [auto|discriminate]. Qed.
Lemma dop_reached h ab : reached solve pinv h ab -> dreached solve pinv log6 dlog6 norm (map DOp h) ab.
Proof. intros (name & mem & R). exists name, mem. apply run_dop. exact R. Qed.
Lemma dop_fixed h : forall b, base_fixed b h = true -> dbase_fixed b (map DOp h) = true.
Proof. induction h as [|o h IH]; intros b H; [reflexivity|]. destruct o; cbn in *; auto. apply andb_prop in H. destruct H as [-> H]. cbn. auto. Qed.
Lemma dop_none h : no_integration (map DOp h) = true.
Proof. induction h as [|o h IH]; [reflexivity|exact IH]. Qed.
Lemma c63_motion h s dt ts fs e mem : reached solve pinv h (a_ab s) -> base_fixed false h = true ->
  dt <> 0 -> keq dt dt = true -> (forall t, In t ts -> t_dt t = dt) -> app_loop ts s = Ok (fs, e) -> (forall f, In f fs -> f_done f = true) ->
  exists abs, map ab_q abs = map f_q fs /\ map ab_dq abs = map f_dq fs /\
    obeys log6 dlog6 norm dt mem (vmap2 (ab_dof (a_ab s)) (fun x v => x - dt * v) (ab_q (a_ab s)) (ab_dq (a_ab s))) (a_ab s) (legs_of fs) abs.
Proof.
  intros R B Hd HR Ht E D. destruct (loop_travel dt ts Ht s fs e E D) as (legs & abs & I1 & I2 & I3 & I4).
  exists abs. split; [auto|]. split; [auto|]. eapply obeys_ext; [exact I2|].
  apply (c48 solve pinv log6 dlog6 norm (map DOp h)); auto; [apply dop_reached; auto|apply dop_fixed; auto|apply dop_none].
Qed.
End Loop.
