(** The simulator application (C63): programs of queries. *)
From Coq Require Import List Arith ZArith Bool String Lia.
From Verif Require Import Scalar Base Spatial Joint Body Kin InvDyn FwdDyn Opspace OpspaceAba Deriv Sim Ops Control Discrete Json App Specs SpecCache SpecKin SpecDyn SpecOps SpecDiscrete
  TreeProofs CacheProofs CacheOps DynProofs DynApi OpsCache OpsApi TwinProofs DiscreteCache DiscreteProofs DiscreteTravel DiscreteStill.
Import ListNotations.
Local Open Scope nat_scope.

Section Prog.
Context {S : Scal}.
Variable solve : list (list K) -> list K -> list K.
Variable pinv : list (list K) -> K -> list (list K) * bool.

Inductive prog (A : Type) := PDone (r : res A) | PAsk (q : query) (k : answer -> prog A).
Arguments PDone {A}. Arguments PAsk {A}.
Fixpoint exec {A} (p : prog A) (ab : body) : res (body * A) :=
  match p with
  | PDone r => bind r (fun a => Ok (ab, a))
  | PAsk q k => bind (ask solve pinv q ab) (fun '(ab, x) => exec (k x) ab)
  end.
Fixpoint pbind {A B} (p : prog A) (f : A -> prog B) : prog B :=
  match p with
  | PDone (Ok a) => f a
  | PDone Throw => PDone Throw
  | PDone UB => PDone UB
  | PAsk q k => PAsk q (fun x => pbind (k x) f)
  end.
Lemma exec_bind {A B} (p : prog A) (f : A -> prog B) : forall ab,
  exec (pbind p f) ab = bind (exec p ab) (fun '(ab, a) => exec (f a) ab).
Proof.
  induction p as [r|q k IH]; intros ab; [destruct r; reflexivity|]. cbn [pbind exec]. destruct (ask solve pinv q ab) as [[a x]| |]; cbn [bind]; auto.
Qed.
Fixpoint safe_prog {A} (p : prog A) : Prop :=
  match p with PDone _ => True | PAsk q k => safe q /\ forall x, safe_prog (k x) end.
Lemma safe_bind {A B} (p : prog A) (f : A -> prog B) : safe_prog p -> (forall a, safe_prog (f a)) -> safe_prog (pbind p f).
Proof. induction p as [r|q k IH]; intros Hp Hf; [destruct r; cbn; auto|]. destruct Hp. split; auto. Qed.

(** Queries leave everything but the cache alone. *)
Lemma exec_frame {A} (p : prog A) : forall ab ab' x, exec p ab = Ok (ab', x) -> ab_cache ab <> None -> exists c, ab' = set_cache ab (Some c).
Proof.
  induction p as [r|q k IH]; intros ab ab' x E N.
  - cbn in E. destruct r; inversion E; subst. destruct (ab_cache ab') eqn:X; [|congruence]. exists c. destruct ab'; cbn in *; subst; reflexivity.
  - cbn in E. destruct (ask solve pinv q ab) as [[a y]| |] eqn:Q; try discriminate. cbn in E. destruct (ask_frame solve pinv _ _ _ _ Q) as [c ->].
    destruct (IH y _ _ _ E ltac:(discriminate)) as [c' ->]. exists c'. reflexivity.
Qed.
(** They are queries of a history. *)
Lemma exec_run {A} (p : prog A) : forall ab ab' x, exec p ab = Ok (ab', x) -> exists qs, run solve pinv (map OAsk qs) ab = Some ab'.
Proof.
  induction p as [r|q k IH]; intros ab ab' x E.
  - cbn in E. destruct r; inversion E; subst. exists []. reflexivity.
  - cbn in E. destruct (ask solve pinv q ab) as [[a y]| |] eqn:Q; try discriminate. cbn in E. destruct (IH y _ _ _ E) as [qs R]. exists (q :: qs). cbn. rewrite Q. exact R.
Qed.

Section Good.
Context {AC : AddComm S} {ES : EqSound S}.
Local Notation yes := (fun _ : body => True).
Local Notation good := (good solve pinv yes).
Local Notation twin := (twin solve pinv yes).
Local Notation pair_of := (pair_of solve pinv yes).
Lemma exec_pair {A} (p : prog A) : safe_prog p -> forall a b, twin a b -> pair_of (exec p a) (exec p b).
Proof.
  induction p as [r|q k IH]; intros Hp a b TW.
  - cbn. destruct r; cbn; auto.
  - cbn [exec]. destruct Hp as [Hq Hk]. apply pair_bind; [apply pair_ask; auto|]. intros a' b' v TW'. apply IH; auto.
Qed.
Lemma exec_good {A} (p : prog A) : safe_prog p -> forall a a' x, good a -> exec p a = Ok (a', x) -> good a' /\ exists c, a' = set_cache a (Some c).
Proof.
  intros Hp a a' x G E. split.
  - revert a G E. induction p as [r|q k IH]; intros a G E; cbn in E; [destruct r; inversion E; subst; auto|]. destruct Hp as [Hq Hk].
    destruct (ask solve pinv q a) as [[a1 y]| |] eqn:Q; try discriminate. cbn in E. apply (IH y (Hk y) a1); auto.
    apply (good_ask solve pinv yes ltac:(auto) a q a1 y G); auto. apply Hq.
  - apply (exec_frame p a a' x E). destruct (tk_cache _ (gd_tree _ _ _ _ G)) as [c Hc]. congruence.
Qed.
Lemma exec_fresh {A} (p : prog A) a mem : safe_prog p -> good a -> outcome (exec p a) = outcome (exec p (cold a mem)).
Proof.
  intros Hp G. assert (TW : twin a (cold a mem)).
  { split; [auto|]. split; [apply good_cold; auto; apply (gd_tree _ _ _ _ G)|]. destruct (tk_cache _ (gd_tree _ _ _ _ G)) as [c Hc]. exists c. destruct a; cbn in *; subst; reflexivity. }
  pose proof (exec_pair p Hp _ _ TW) as X. destruct (exec p a) as [[? ?]| |], (exec p (cold a mem)) as [[? ?]| |]; cbn in *; try tauto. destruct X as [-> _]. reflexivity.
Qed.
End Good.
End Prog.
Arguments PDone {S A}. Arguments PAsk {S A}.

Section AppProg.
Context {S : Scal}.
Variable solve : list (list K) -> list K -> list K.
Variable pinv : list (list K) -> K -> list (list K) * bool.
Variable pd_pos : v3 -> v3 -> list K -> K * K -> list K.
Variable pd_ori : m3 -> m3 -> list K -> K * K -> list K.
Variable pd_joint : list K -> list K -> list K -> K * K -> list K.
Local Open Scope k_scope.

Definition ask_mots (q : query) : prog (list motion) := PAsk q (fun x => match x with AMots J => PDone (Ok J) | _ => PDone UB end).
Definition ask_v3 (q : query) : prog v3 := PAsk q (fun x => match x with AV3 J => PDone (Ok J) | _ => PDone UB end).
Definition ask_m3 (q : query) : prog m3 := PAsk q (fun x => match x with AM3 J => PDone (Ok J) | _ => PDone UB end).
Definition ask_bool (q : query) : prog bool := PAsk q (fun x => match x with ABool J => PDone (Ok J) | _ => PDone UB end).
Definition ask_vec (q : query) : prog (list K) := PAsk q (fun x => match x with AVec J => PDone (Ok J) | _ => PDone UB end).
Definition ask_null (q : query) : prog (option lmat * list K) := PAsk q (fun x => match x with ANull N J => PDone (Ok (N, J)) | _ => PDone UB end).

Definition control_prog (t : tick) (q_des : list K) (x_des : v3) (R_des : m3) (n : nat) (q dq : list K) : prog (list K * v3 * m3) :=
  pbind (ask_mots (QJac (-1) ee_offset)) (fun J =>
  let J := jac_rows J in
  pbind (ask_v3 (QPos (-1) ee_offset)) (fun x =>
  let dx := lmulv 3 n (firstn 3 J) dq in
  pbind (PDone (get_future (t_pos t))) (fun g =>
  let ddx := pd_pos x x_des dx g in
  pbind (ask_m3 (QOri (-1))) (fun R =>
  let w := lmulv 3 n (skipn 3 J) dq in
  pbind (PDone (get_future (t_ori t))) (fun g =>
  let dw := pd_ori R R_des w g in
  pbind (ask_bool (QoSing J 0)) (fun singular =>
  pbind (if singular
        then ask_null (QoID (firstn 3 J) ddx (Some []) no_force true ops_default)
        else ask_null (QoID J (ddx ++ dw) (Some []) no_force true ops_default)) (fun '(N, tau) =>
  pbind (PDone (get_future (t_joint t))) (fun g =>
  let ddq := pd_joint q q_des dq g in
  pbind (ask_null (QoID (lid n) ddq N no_force true ops_default)) (fun '(_, t) =>
  pbind (ask_vec QGrav) (fun G =>
  PDone (Ok (vadd (vadd tau t) G, x, R)))))))))))).

Definition forces_prog (i : val) (name : string) : prog fmap :=
  pbind (PDone (const_at i "key_object")) (fun o =>
  pbind (PDone (get_str o)) (fun key =>
  if negb (String.eqb key (key_models_prefix ++ name)) then PDone (Ok no_force)
  else
    pbind (PDone (const_at i "idx_link")) (fun l =>
    pbind (PDone (get_size l)) (fun link =>
    pbind (PDone (const_at i "pos_mouse_in_world")) (fun m =>
    pbind (PDone (dec_v3 m)) (fun mouse =>
    pbind (PDone (const_at i "pos_click_in_link")) (fun c =>
    pbind (PDone (dec_v3 c)) (fun click =>
    pbind (ask_v3 (QPos (to_int link) click)) (fun p =>
    PDone (Ok (fun k => if Z.eqb (Z.of_nat k) link then Some (click_force mouse p) else None))))))))))).

Definition step_prog (t : tick) (q_des : list K) (x_des : v3) (R_des : m3) (n : nat) (q dq : list K) (name : string) : prog (list K * v3 * m3 * fmap * string) :=
  pbind (control_prog t q_des x_des R_des n q dq) (fun '(tau, x, R) =>
  pbind (PDone (get_future (t_web t))) (fun i =>
  pbind (forces_prog i name) (fun fe =>
  pbind (PDone (string_at i "key_down")) (fun key => PDone (Ok (tau, x, R, fe, key)))))).

Lemma safe_jac l o : @safe S (QJac l o). Proof. split; [intros x []|auto]. Qed.
Lemma safe_pos l o : @safe S (QPos l o). Proof. split; [intros x []|auto]. Qed.
Lemma safe_ori l : @safe S (QOri l). Proof. split; [intros x []|auto]. Qed.
Lemma safe_sing J e : @safe S (QoSing J e). Proof. split; [intros x []|auto]. Qed.
Lemma safe_grav : @safe S QGrav. Proof. split; [intros x []|auto]. Qed.
Lemma safe_oid J d N b : @safe S (QoID J d N no_force b ops_default). Proof. split; [intros x [H|[]]; auto|auto]. Qed.

Ltac safe_step := first [apply safe_bind; [|intros ?] | exact I | split; [|intros []; exact I]
  | apply safe_jac | apply safe_pos | apply safe_ori | apply safe_sing | apply safe_grav | apply safe_oid].
Lemma control_safe t qd xd Rd n q dq : safe_prog (control_prog t qd xd Rd n q dq).
Proof.
  unfold control_prog. repeat (safe_step || match goal with a : (_ * _)%type |- _ => destruct a | b : bool |- _ => destruct b end).
Qed.
Lemma forces_safe i name : safe_prog (forces_prog i name).
Proof. unfold forces_prog. repeat safe_step. destruct (negb _); repeat safe_step. Qed.
Lemma step_safe t qd xd Rd n q dq name : safe_prog (step_prog t qd xd Rd n q dq name).
Proof.
  unfold step_prog. apply safe_bind; [apply control_safe|]. intros [[tau x] R]. apply safe_bind; [exact I|]. intros i. apply safe_bind; [apply forces_safe|]. intros fe. repeat safe_step.
Qed.

Lemma exec_done {A} (r : res A) ab : exec solve pinv (PDone r) ab = bind r (fun a => Ok (ab, a)).
Proof. reflexivity. Qed.
Lemma exec_v3 l o ab : exec solve pinv (ask_v3 (QPos l o)) ab = q_Position l o ab.
Proof. cbn. destruct (q_Position l o ab) as [[a x]| |]; reflexivity. Qed.
Lemma exec_m3 l ab : exec solve pinv (ask_m3 (QOri l)) ab = q_Orientation l ab.
Proof. cbn. destruct (q_Orientation l ab) as [[a x]| |]; reflexivity. Qed.
Lemma exec_mots l o ab : exec solve pinv (ask_mots (QJac l o)) ab = q_Jacobian l o ab.
Proof. cbn. destruct (q_Jacobian l o ab) as [[a x]| |]; reflexivity. Qed.
Lemma exec_sing J e ab : exec solve pinv (ask_bool (QoSing J e)) ab = q_ops_IsSingular solve pinv J e ab.
Proof. cbn. destruct (q_ops_IsSingular solve pinv J e ab) as [[a x]| |]; reflexivity. Qed.
Lemma exec_grav ab : exec solve pinv (ask_vec QGrav) ab = q_Gravity ab.
Proof. cbn. destruct (q_Gravity ab) as [[a x]| |]; reflexivity. Qed.
Lemma exec_oid J d N b o ab : exec solve pinv (ask_null (QoID J d N no_force b o)) ab = q_ops_InverseDynamics solve pinv J d N no_force b o ab.
Proof. cbn. destruct (q_ops_InverseDynamics solve pinv J d N no_force b o ab) as [[a [N' x]]| |]; reflexivity. Qed.

(** The state seen by the later calls is that of the first. *)
Lemma step_same {A B} (p : prog A) ab (f : body -> A -> res (body * B)) (g : A -> prog B) :
  (forall a x, ab_q a = ab_q ab -> ab_dq a = ab_dq ab -> ab_name a = ab_name ab -> ab_dof a = ab_dof ab -> f a x = exec solve pinv (g x) a) ->
  bind (exec solve pinv p ab) (fun '(a, x) => f a x) = exec solve pinv (pbind p g) ab.
Proof.
  intros H. rewrite exec_bind. destruct (exec solve pinv p ab) as [[a x]| |] eqn:E; [|reflexivity..]. cbn [bind].
  assert (F : ab_q a = ab_q ab /\ ab_dq a = ab_dq ab /\ ab_name a = ab_name ab /\ ab_dof a = ab_dof ab).
  { clear H. revert ab E. induction p as [r|q k IH]; intros ab E; cbn in E; [destruct r; inversion E; subst; auto|].
    destruct (ask solve pinv q ab) as [[a1 y]| |] eqn:Q; try discriminate. cbn in E. destruct (ask_frame solve pinv _ _ _ _ Q) as [c ->]. exact (IH y _ E). }
  destruct F as (F1 & F2 & F3 & F4). auto.
Qed.
Lemma step_same2 {A A' B} (p : prog (A * A')) ab (f : body -> A -> A' -> res (body * B)) (g : A -> A' -> prog B) :
  (forall a x y, ab_q a = ab_q ab -> ab_dq a = ab_dq ab -> ab_name a = ab_name ab -> ab_dof a = ab_dof ab -> f a x y = exec solve pinv (g x y) a) ->
  bind (exec solve pinv p ab) (fun '(a, (x, y)) => f a x y) = exec solve pinv (pbind p (fun '(x, y) => g x y)) ab.
Proof. intros H. apply (step_same p ab (fun a z => let '(x, y) := z in f a x y) (fun z => let '(x, y) := z in g x y)). intros a [x y]. apply H. Qed.
Lemma control_exec t qd xd Rd ab :
  app_control solve pinv pd_pos pd_ori pd_joint t qd xd Rd ab = exec solve pinv (control_prog t qd xd Rd (ab_dof ab) (ab_q ab) (ab_dq ab)) ab.
Proof.
  unfold app_control, control_prog.
  rewrite <- exec_mots. apply step_same. intros a1 J Q1 D1 _ N1.
  rewrite <- exec_v3. rewrite <- D1, <- N1, <- Q1. apply step_same. intros a2 x Q2 D2 _ N2. rewrite <- Q2, <- D2, <- N2.
  rewrite exec_bind, exec_done. destruct (get_future (t_pos t)) as [g| |]; [|reflexivity..]. cbn [bind].
  rewrite <- exec_m3. apply step_same. intros a3 R Q3 D3 _ N3. rewrite <- Q3, <- D3, <- N3.
  rewrite exec_bind, exec_done. destruct (get_future (t_ori t)) as [g'| |]; [|reflexivity..]. cbn [bind].
  rewrite <- exec_sing. apply step_same. intros a4 s Q4 D4 _ N4. rewrite <- Q4, <- D4, <- N4.
  match goal with |- bind ?x _ = exec _ _ (pbind ?p _) a4 => replace x with (exec solve pinv p a4) by (destruct s; apply exec_oid) end.
  apply step_same2. intros a5 N tau Q5 D5 _ N5. rewrite <- Q5, <- D5, <- N5.
  rewrite exec_bind, exec_done. destruct (get_future (t_joint t)) as [gj| |]; [|reflexivity..]. cbn [bind].
  rewrite <- exec_oid. apply step_same2. intros a6 N' tau' Q6 D6 _ N6.
  rewrite <- exec_grav. apply step_same. intros a7 G _ _ _ _. reflexivity.
Qed.
Lemma forces_exec i ab : compute_external_forces i ab = exec solve pinv (forces_prog i (ab_name ab)) ab.
Proof.
  unfold compute_external_forces, forces_prog.
  rewrite exec_bind, exec_done. destruct (const_at i "key_object") as [o| |]; [|reflexivity..]. cbn [bind].
  rewrite exec_bind, exec_done. destruct (get_str o) as [key| |]; [|reflexivity..]. cbn [bind].
  destruct (negb _); [reflexivity|].
  rewrite exec_bind, exec_done. destruct (const_at i "idx_link") as [l| |]; [|reflexivity..]. cbn [bind].
  rewrite exec_bind, exec_done. destruct (get_size l) as [link| |]; [|reflexivity..]. cbn [bind].
  rewrite exec_bind, exec_done. destruct (const_at i "pos_mouse_in_world") as [m| |]; [|reflexivity..]. cbn [bind].
  rewrite exec_bind, exec_done. destruct (dec_v3 m) as [mouse| |]; [|reflexivity..]. cbn [bind].
  rewrite exec_bind, exec_done. destruct (const_at i "pos_click_in_link") as [c| |]; [|reflexivity..]. cbn [bind].
  rewrite exec_bind, exec_done. destruct (dec_v3 c) as [click| |]; [|reflexivity..]. cbn [bind].
  rewrite <- exec_v3. apply step_same. reflexivity.
Qed.
Variable log6 : iso -> motion.
Variable dlog6 : iso -> i6.
Variable norm : list K -> K.
Lemma step_exec t s :
  app_step solve pinv log6 dlog6 norm pd_pos pd_ori pd_joint t s =
  bind (exec solve pinv (step_prog t (a_q s) (a_x s) (a_R s) (ab_dof (a_ab s)) (ab_q (a_ab s)) (ab_dq (a_ab s)) (ab_name (a_ab s))) (a_ab s)) (fun '(ab, (tau, x, R, fe, key)) =>
  bind (q_DiscreteIntegrate solve log6 dlog6 norm tau (t_dt t) fe true variational_epsilon max_iterations ab) (fun '(ab, done) =>
  Ok (App ab (a_q s) (adjust_position key (a_x s)) (a_R s), Frame tau (adjust_position key (a_x s)) (ab_q ab) (ab_dq ab) x R fe done))).
Proof.
  unfold app_step, step_prog. rewrite control_exec, exec_bind. destruct (exec solve pinv _ (a_ab s)) as [[a1 [[tau x] R]]| |] eqn:E; [|reflexivity..]. cbn [bind].
  assert (N : ab_name a1 = ab_name (a_ab s)).
  { pose proof (step_same (control_prog t (a_q s) (a_x s) (a_R s) (ab_dof (a_ab s)) (ab_q (a_ab s)) (ab_dq (a_ab s))) (a_ab s) (fun a _ => Ok (a, ab_name a)) (fun _ => PDone (Ok (ab_name (a_ab s))))) as X.
    rewrite exec_bind, E in X. cbn in X. specialize (X ltac:(intros a y _ _ -> _; reflexivity)). inversion X. auto. }
  rewrite exec_bind, exec_done. destruct (get_future (t_web t)) as [i| |]; [|reflexivity..]. cbn [bind].
  rewrite forces_exec, N, exec_bind. destruct (exec solve pinv (forces_prog i _) a1) as [[a2 fe]| |]; [|reflexivity..]. cbn [bind].
  rewrite exec_bind, exec_done. destruct (string_at i "key_down") as [key| |]; reflexivity.
Qed.
End AppProg.
