(** Proofs about the joint-space controller. *)
From Coq Require Import List Arith ZArith Bool Lia Field.
From Verif Require Import Scalar Base Spatial Joint Body Kin InvDyn FwdDyn Opspace OpspaceAba Deriv Sim Ops Control JointControl Specs SpecCache SpecKin SpecDyn SpecOps SpecControl SpecJs
  TreeProofs CacheProofs CacheOps KinProofs BigSum DynProofs DynApi OpsCache OpsApi OpsAlg OpsTask ControlProofs TwinProofs.
Import ListNotations.

Section Gen.
Context {S : Scal}.
Local Open Scope k_scope.
Lemma arrived_spec threshold err dq : js_converged threshold err dq = true <-> arrived threshold err dq.
Proof.
  destruct threshold as [[x dx]|]; cbn [js_converged arrived]; [|tauto].
  unfold lnorm, euclid. rewrite andb_true_iff, !fold_left_map_sq. reflexivity.
Qed.
Variable solve : list (list K) -> list K -> list K.
Variable pinv : list (list K) -> K -> list (list K) * bool.
(** The parts of a call. *)
Lemma jsc_parts pd joint threshold grav st ab ab' tau conv :
  joint_space_control solve pd joint threshold grav st ab = Ok (ab', (tau, conv)) ->
  exists ab1, ask solve pinv (QID (asked_acc pd joint ab) (fun _ => None) (IdOpts grav false false (klit 1 100))) ab = Ok (ab1, AVec tau) /\
    conv = js_converged threshold (position_error pd joint ab) (ab_dq ab1) /\
    match st with
    | None => ab' = ab1
    | Some dt => step solve pinv (OIntegrate false tau (fun _ => None) (IdOpts true true false (klit 1 100)) (IntOpts false MRk4) dt) ab1 = Some ab'
    end.
Proof.
  unfold joint_space_control, asked_acc, position_error. set (qd := match joint with Some q => q | None => ab_q ab end).
  destruct (pd (ab_q ab) qd (ab_dq ab)) as [ddq err]. cbn [fst snd]. intros E. change (fun _ : nat => None) with no_force.
  destruct (q_InverseDynamics ddq no_force _ ab) as [[ab1 t]| |] eqn:E1; try discriminate. cbn [bind] in E. exists ab1.
  cbn [ask]. unfold wrap. destruct st as [dt|].
  - destruct (integrate _ _ _ _) as [a2| |] eqn:E2; try discriminate. cbn [bind] in E. inversion E; subst. rewrite E1. cbn [bind].
    split; [reflexivity|]. split; [reflexivity|]. cbn [step]. change (fun _ : nat => None) with no_force. rewrite E2. reflexivity.
  - inversion E; subst. rewrite E1. split; [reflexivity|]. auto.
Qed.

(** Integration never fails. *)
Lemma put_total io q dq a : i_limits io = false -> tree_ok a -> List.length q = ab_dof a -> List.length dq = ab_dof a ->
  exists a', put io q dq a = Ok a' /\ tree_ok a' /\ ab_dof a' = ab_dof a.
Proof.
  intros Hl T Lq Ld.
  assert (X : exists b', put io q dq a = Ok b').
  { unfold put. rewrite Hl. cbn [bind]. unfold set_q. rewrite Lq, (tk_q _ T), Nat.eqb_refl. cbn [negb]. unfold called at 1.
    destruct (veqb (ab_q a) q); cbn [bind]; unfold set_dq; cbn [ab_dof ab_dq]; rewrite Ld, (tk_dq _ T), Nat.eqb_refl; cbn [negb]; destruct (veqb (ab_dq a) dq); cbn [called]; eauto. }
  destruct X as [b' X]. exists b'. split; [auto|]. split; [eapply tree_put; eauto|].
  destruct (put_frame _ _ _ _ _ X) as [(D & _) _]. exact (eq_sym D).
Qed.
Lemma simfd_total tau fe o a : tree_ok a -> List.length tau = ab_dof a -> exists a' x, sim_fd solve false tau fe o a = Ok (a', x) /\ tree_ok a' /\ ab_dof a' = ab_dof a.
Proof.
  intros T Hl. assert (X : exists a' x, sim_fd solve false tau fe o a = Ok (a', x)).
  { unfold sim_fd, q_ForwardDynamics. rewrite Hl, Nat.eqb_refl. unfold on_cache. destruct (tk_cache _ T) as [c ->].
    unfold forward_dynamics. destruct (inverse_dynamics _ _ _ _ _) as [c' b]. cbn [bind]. eauto. }
  destruct X as (a' & x & X). exists a', x. split; [auto|]. apply (sim_fd_frame solve pinv) in X. destruct X as [c ->]. split; [apply tree_set_cache; auto|reflexivity].
Qed.
Lemma integrate_any tau fe o io dt a : i_limits io = false -> tree_ok a -> List.length tau = ab_dof a ->
  exists a', integrate (sim_fd solve false tau fe o) io dt a = Ok a'.
Proof.
  intros Hl T LT. unfold integrate. destruct (simfd_total tau fe o a T LT) as (a1 & x1 & -> & T1 & D1). cbn [bind]. unfold vlin. destruct (i_method io).
  - match goal with |- context [put io (vec _ ?f) (vec _ ?h) a1] => destruct (put_total io (vec (ab_dof a) f) (vec (ab_dof a) h) a1 Hl T1) as (a' & E & _); try (rewrite vec_length; congruence) end.
    exists a'. exact E.
  - match goal with |- context [put io (vec _ ?f) (vec _ ?h) a1] => destruct (put_total io (vec (ab_dof a) f) (vec (ab_dof a) h) a1 Hl T1) as (a2 & E2 & T2 & D2); try (rewrite vec_length; congruence) end.
    rewrite E2. cbn [bind]. destruct (simfd_total tau fe o a2 T2 ltac:(congruence)) as (a3 & x3 & -> & T3 & D3). cbn [bind].
    match goal with |- context [put io (vec _ ?f) (vec _ ?h) a3] => destruct (put_total io (vec (ab_dof a) f) (vec (ab_dof a) h) a3 Hl T3) as (a4 & E4 & _); try (rewrite vec_length; congruence) end.
    exists a4. exact E4.
  - match goal with |- context [put io (vec _ ?f) (vec _ ?h) a1] => destruct (put_total io (vec (ab_dof a) f) (vec (ab_dof a) h) a1 Hl T1) as (a2 & E2 & T2 & D2); try (rewrite vec_length; congruence) end.
    rewrite E2. cbn [bind]. destruct (simfd_total tau fe o a2 T2 ltac:(congruence)) as (a3 & x3 & -> & T3 & D3). cbn [bind].
    match goal with |- context [put io (vec _ ?f) (vec _ ?h) a3] => destruct (put_total io (vec (ab_dof a) f) (vec (ab_dof a) h) a3 Hl T3) as (a4 & E4 & T4 & D4); try (rewrite vec_length; congruence) end.
    rewrite E4. cbn [bind]. destruct (simfd_total tau fe o a4 T4 ltac:(congruence)) as (a5 & x5 & -> & T5 & D5). cbn [bind].
    match goal with |- context [put io (vec _ ?f) (vec _ ?h) a5] => destruct (put_total io (vec (ab_dof a) f) (vec (ab_dof a) h) a5 Hl T5) as (a6 & E6 & T6 & D6); try (rewrite vec_length; congruence) end.
    rewrite E6. cbn [bind]. destruct (simfd_total tau fe o a6 T6 ltac:(congruence)) as (a7 & x7 & -> & T7 & D7). cbn [bind].
    match goal with |- context [put io (vec _ ?f) (vec _ ?h) a7] => destruct (put_total io (vec (ab_dof a) f) (vec (ab_dof a) h) a7 Hl T7) as (a8 & E8 & _); try (rewrite vec_length; congruence) end.
    exists a8. exact E8.
Qed.
Lemma id_total ddq fe o a : tree_ok a -> List.length ddq = ab_dof a -> exists a' x, q_InverseDynamics ddq fe o a = Ok (a', x) /\ tree_ok a' /\ ab_dof a' = ab_dof a.
Proof.
  intros T Hl. assert (X : exists a' x, q_InverseDynamics ddq fe o a = Ok (a', x)).
  { unfold q_InverseDynamics. rewrite Hl, Nat.eqb_refl. unfold on_cache. destruct (tk_cache _ T) as [c ->].
    destruct (inverse_dynamics _ _ _ _ _) as [c' b]. cbn [bind]. eauto. }
  destruct X as (a' & x & X). exists a', x. split; [auto|].
  destruct (ask_frame solve pinv (QID ddq fe o) a a' (AVec x)) as [c ->]; [cbn [ask]; rewrite X; reflexivity|]. split; [apply tree_set_cache; auto|reflexivity].
Qed.
Lemma id_len ddq fe o a a' x : q_InverseDynamics ddq fe o a = Ok (a', x) -> List.length x = ab_dof a.
Proof.
  unfold q_InverseDynamics. destruct (Nat.eqb _ _); [|discriminate]. unfold on_cache. destruct (ab_cache a) as [c|]; [|discriminate].
  destruct (inverse_dynamics _ _ _ _ _) as [c' b]. cbn. intros E; inversion E. apply vec_length.
Qed.
Lemma c52_total h ab pd joint threshold grav st : reached solve pinv h ab -> List.length (asked_acc pd joint ab) = ab_dof ab ->
  exists r, joint_space_control solve pd joint threshold grav st ab = Ok r.
Proof.
  intros R LD. pose proof (tree_reached solve pinv h ab R) as T.
  unfold joint_space_control. unfold asked_acc in *. destruct (pd (ab_q ab) (match joint with Some q => q | None => ab_q ab end) (ab_dq ab)) as [ddq err]. cbn [fst] in *.
  destruct (id_total ddq no_force (IdOpts grav false false (klit 1 100)) ab T LD) as (a1 & tau & E & T1 & D1). rewrite E. cbn [bind].
  destruct st as [dt|]; [|eauto]. pose proof (id_len _ _ _ _ _ _ E) as LT.
  destruct (integrate_any tau no_force (IdOpts true true false (klit 1 100)) (IntOpts false MRk4) dt a1 eq_refl T1 ltac:(congruence)) as [a' ->]. cbn [bind]. eauto.
Qed.
End Gen.

Section Laws.
Context {S : Scal} {L : ScalLaws S} {PL : PosLaws S}.
Local Open Scope k_scope.
Add Field kf : (@kfield S L).
Variable solve : list (list K) -> list K -> list K.
Variable pinv : list (list K) -> K -> list (list K) * bool.
#[local] Instance comm_laws : AddComm S := laws_comm.

Section Robot.
Variables (h : list op) (ab : body).
Hypothesis R : reached solve pinv h ab.
Hypothesis B : base_fixed false h = true.
Hypothesis P : proper ab.

(** No external forces, no external torques. *)
Lemma ext_zero : exists E, outcome (ask solve pinv (QExt (fun _ => None)) ab) = Ok (AVec E) /\ forall i, (i < ab_dof ab)%nat -> coef E i = 0.
Proof.
  destruct (c16 solve pinv h ab (fun _ => None) R B (pr_rigid _ P)) as (J & X & E & _ & _ & HE & _ & H). exists E. split; [exact HE|].
  intros i Hi. rewrite (H i (fun _ => v3zero) Hi). unfold over_links. 
  assert (Z : forall l : list nat, total (map (fun _ => 0) l) = 0) by (induction l as [|a l IH]; cbn; [reflexivity|unfold total in *; cbn; rewrite IH; ring]).
  rewrite Z. ring.
Qed.
(** What the torques of a call are. *)
Lemma id_terms ddq grav cc e : List.length ddq = ab_dof ab -> exists A C G tau,
  outcome (ask solve pinv QInertia ab) = Ok (AMat A) /\ outcome (ask solve pinv QCC ab) = Ok (AVec C) /\ outcome (ask solve pinv QGrav ab) = Ok (AVec G) /\
  outcome (ask solve pinv (QID ddq (fun _ => None) (IdOpts grav cc false e)) ab) = Ok (AVec tau) /\ List.length tau = ab_dof ab /\
  forall i, (i < ab_dof ab)%nat -> coef tau i = row_times (ab_dof ab) A ddq i + (if cc then coef C i else 0) + (if grav then coef G i else 0).
Proof.
  intros Hd. destruct (c14 solve pinv h ab ddq (fun _ => None) (IdOpts grav cc false e) R B P Hd) as (A & C & G & E & tau & HA & HC & HG & HE & HT & HF & _).
  specialize (HF eq_refl). cbn [o_cc o_grav] in HF. exists A, C, G, tau. split; [auto|]. split; [auto|]. split; [auto|]. split; [auto|].
  split; [rewrite HF; apply vec_length|]. intros i Hi. rewrite HF, coef_vec by auto.
  destruct ext_zero as (E' & HE' & Z). rewrite HE in HE'. inversion HE'; subst E'. rewrite (Z i Hi). unfold over_links, row_times. ring.
Qed.
Variables (pd : list K -> list K -> list K -> list K * list K) (joint : option (list K)) (threshold : option (K * K)) (grav : bool).

Lemma c52_torques st ab' tau conv : joint_space_control solve pd joint threshold grav st ab = Ok (ab', (tau, conv)) ->
  List.length (asked_acc pd joint ab) = ab_dof ab /\
  (exists A G, outcome (ask solve pinv QInertia ab) = Ok (AMat A) /\ outcome (ask solve pinv QGrav ab) = Ok (AVec G) /\ List.length tau = ab_dof ab /\
    forall i, (i < ab_dof ab)%nat -> coef tau i = row_times (ab_dof ab) A (asked_acc pd joint ab) i + (if grav then coef G i else 0)) /\
  (conv = true <-> arrived threshold (position_error pd joint ab) (ab_dq ab)) /\
  exists ab1 c, ab1 = set_cache ab (Some c) /\
    match st with
    | None => ab' = ab1
    | Some dt => step solve pinv (OIntegrate false tau (fun _ => None) (IdOpts true true false (klit 1 100)) (IntOpts false MRk4) dt) ab1 = Some ab'
    end.
Proof.
  intros E. destruct (jsc_parts solve pinv _ _ _ _ _ _ _ _ _ E) as (ab1 & A1 & HC & H).
  destruct (ask_frame solve pinv _ _ _ _ A1) as [c Ec].
  assert (LD : List.length (asked_acc pd joint ab) = ab_dof ab).
  { pose proof A1 as A2. cbn [ask] in A2. unfold q_InverseDynamics in A2. destruct (Nat.eqb (List.length (asked_acc pd joint ab)) (ab_dof ab)) eqn:Q; [apply Nat.eqb_eq; exact Q|discriminate A2]. }
  split; [exact LD|]. split; [|split].
  - destruct (id_terms (asked_acc pd joint ab) grav false (klit 1 100) LD) as (A & C & G & t & HA & _ & HG & HT & HL & HV). rewrite A1 in HT. cbn in HT. inversion HT; subst t.
    exists A, G. split; [auto|]. split; [auto|]. split; [auto|]. intros i Hi. rewrite HV by auto. ring.
  - rewrite HC, arrived_spec. subst ab1. reflexivity.
  - exists ab1, c. split; [exact Ec|exact H].
Qed.
(** With an exact solver the robot without centrifugal and Coriolis forces would
    accelerate as asked. *)
Lemma c52_achieves st ab' tau conv A e : outcome (ask solve pinv QInertia ab) = Ok (AMat A) -> solver_ok solve (ab_dof ab) A -> injective (ab_dof ab) A ->
  joint_space_control solve pd joint threshold grav st ab = Ok (ab', (tau, conv)) ->
  outcome (ask solve pinv (QFD tau (fun _ => None) (IdOpts grav false false e)) ab) = Ok (AVec (asked_acc pd joint ab)).
Proof.
  intros HA SO IN E. destruct (jsc_parts solve pinv _ _ _ _ _ _ _ _ _ E) as (ab1 & A1 & _).
  destruct (c52_torques st ab' tau conv E) as (LD & _).
  destruct (c17 solve pinv h ab (fun _ => None) (IdOpts grav false false e) R B P eq_refl) as (A' & HA' & H). rewrite HA in HA'. inversion HA'; subst A'.
  destruct (H SO) as [_ H2]. destruct (H2 IN _ LD) as (t & E1 & E2).
  assert (X : outcome (ask solve pinv (QID (asked_acc pd joint ab) (fun _ => None) (IdOpts grav false false e)) ab) = Ok (AVec tau)).
  { destruct (id_terms (asked_acc pd joint ab) grav false e LD) as (B1 & _ & G1 & t1 & U1 & _ & U3 & U4 & U5 & U6).
    destruct (id_terms (asked_acc pd joint ab) grav false (klit 1 100) LD) as (B2 & _ & G2 & t2 & V1 & _ & V3 & V4 & V5 & V6).
    rewrite U1 in V1. rewrite U3 in V3. rewrite A1 in V4. cbn in V4. inversion V1; inversion V3; inversion V4; subst. rewrite U4. do 2 f_equal.
    apply (list_coef_ext (ab_dof ab)); auto. intros i Hi. rewrite U6, V6 by auto. reflexivity. }
  rewrite X in E1. inversion E1; subst t. exact E2.
Qed.
(** The motion the function integrates misses the accelerations asked for by the
    centrifugal and Coriolis forces, and by gravity when it is not compensated. *)
Lemma c52_motion st ab' tau conv A e : outcome (ask solve pinv QInertia ab) = Ok (AMat A) -> solver_ok solve (ab_dof ab) A ->
  joint_space_control solve pd joint threshold grav st ab = Ok (ab', (tau, conv)) ->
  exists C G ddq, outcome (ask solve pinv QCC ab) = Ok (AVec C) /\ outcome (ask solve pinv QGrav ab) = Ok (AVec G) /\
    outcome (ask solve pinv (QFD tau (fun _ => None) (IdOpts true true false e)) ab) = Ok (AVec ddq) /\ List.length ddq = ab_dof ab /\
    forall i, (i < ab_dof ab)%nat ->
      row_times (ab_dof ab) A ddq i = row_times (ab_dof ab) A (asked_acc pd joint ab) i - coef C i - (if grav then 0 else coef G i).
Proof.
  intros HA SO E. destruct (c52_torques st ab' tau conv E) as (LD & (A2 & G2 & HA2 & HG2 & LT & HT) & _). rewrite HA in HA2. inversion HA2; subst A2.
  destruct (c17 solve pinv h ab (fun _ => None) (IdOpts true true false e) R B P eq_refl) as (A' & HA' & H). rewrite HA in HA'. inversion HA'; subst A'.
  destruct (H SO) as [H1 _]. destruct (H1 tau LT) as (ddq & E1 & E2).
  assert (LQ : List.length ddq = ab_dof ab). { cbn [ask] in E2. unfold q_InverseDynamics in E2. destruct (Nat.eqb (List.length ddq) (ab_dof ab)) eqn:Q; [apply Nat.eqb_eq; exact Q|discriminate E2]. }
  destruct (id_terms ddq true true e LQ) as (A3 & C & G & t & HA3 & HC & HG & HT3 & _ & HV). rewrite HA in HA3. inversion HA3; subst A3. rewrite HG2 in HG. inversion HG; subst G2. rewrite E2 in HT3. inversion HT3; subst t.
  exists C, G, ddq. split; [auto|]. split; [auto|]. split; [auto|]. split; [auto|]. intros i Hi. specialize (HV i Hi). rewrite (HT i Hi) in HV.
  transitivity (row_times (ab_dof ab) A ddq i + coef C i + coef G i - coef C i - coef G i); [ring|]. rewrite <- HV. destruct grav; ring.
Qed.
End Robot.

(** Two robots that differ in their caches. *)
Definition like (a b : body) : Prop := (tree_ok a /\ wfc a /\ proper a) /\ (tree_ok b /\ wfc b /\ proper b) /\ exists c, a = set_cache b (Some c).
Definition like_r {A} (x y : res (body * A)) : Prop :=
  match x, y with Ok (a, v), Ok (b, w) => v = w /\ like a b | Throw, Throw | UB, UB => True | _, _ => False end.
Definition like_b (x y : res body) : Prop :=
  match x, y with Ok a, Ok b => like a b | Throw, Throw | UB, UB => True | _, _ => False end.
Lemma like_bind {A B} (x y : res (body * A)) (f g : body -> A -> res (body * B)) :
  like_r x y -> (forall a b v, like a b -> like_r (f a v) (g b v)) -> like_r (bind x (fun '(a, v) => f a v)) (bind y (fun '(a, v) => g a v)).
Proof. destruct x as [[a v]| |], y as [[b w]| |]; cbn; try tauto. intros [-> T] H. auto. Qed.
Lemma like_bind_b {A} (x y : res (body * A)) (f g : body -> A -> res body) :
  like_r x y -> (forall a b v, like a b -> like_b (f a v) (g b v)) -> like_b (bind x (fun '(a, v) => f a v)) (bind y (fun '(a, v) => g a v)).
Proof. destruct x as [[a v]| |], y as [[b w]| |]; cbn; try tauto. intros [-> T] H. auto. Qed.
Lemma like_b_bind (x y : res body) (f g : body -> res body) :
  like_b x y -> (forall a b, like a b -> like_b (f a) (g b)) -> like_b (bind x f) (bind y g).
Proof. destruct x as [a| |], y as [b| |]; cbn; try tauto. intros T H. auto. Qed.
Lemma like_fields a b : like a b -> ab_q a = ab_q b /\ ab_dq a = ab_dq b /\ ab_dof a = ab_dof b.
Proof. intros (_ & _ & c & ->). auto. Qed.
Lemma like_eom a b q : like a b -> eom_query q = true -> like_r (ask solve pinv q a) (ask solve pinv q b).
Proof.
  intros ((Ta & Wa & Pa) & (Tb & Wb & Pb) & c & E) Q.
  assert (PC : forall x, tree_ok x -> wfc x -> proper x -> outcome (ask solve pinv q x) = outcome (ask solve pinv q (cold x c))).
  { intros x T W Px. pose proof (cold_tree x c T) as T'. pose proof (cold_wfc x c) as W'. pose proof (proper_cold x c Px) as P'.
    destruct q; try discriminate Q; cbn [ask]; rewrite !outcome_wrap.
    - rewrite (out_ID x T W), (out_ID _ T' W') by auto. reflexivity.
    - rewrite (out_FD solve x T W), (out_FD solve _ T' W') by auto. reflexivity. }
  assert (H : outcome (ask solve pinv q a) = outcome (ask solve pinv q b)) by (rewrite (PC a Ta Wa Pa), (PC b Tb Wb Pb); subst a; reflexivity).
  unfold like_r. destruct (ask solve pinv q a) as [[a' x]| |] eqn:Ea, (ask solve pinv q b) as [[b' y]| |] eqn:Eb; cbn in *; try discriminate; auto.
  inversion H. split; [auto|]. destruct (ask_frame solve pinv _ _ _ _ Ea) as [ca Fa], (ask_frame solve pinv _ _ _ _ Eb) as [cb Fb].
  split; [split; [subst a'; apply tree_set_cache; auto|split; [exact (ask_inv solve pinv q a a' x Ta Wa Ea)|subst a'; apply proper_cache; auto]]|].
  split; [split; [subst b'; apply tree_set_cache; auto|split; [exact (ask_inv solve pinv q b b' y Tb Wb Eb)|subst b'; apply proper_cache; auto]]|].
  exists ca. subst. reflexivity.
Qed.
Lemma like_put io q dq a b : i_limits io = false -> like a b -> like_b (put io q dq a) (put io q dq b).
Proof.
  intros Hl ((Ta & Wa & Pa) & (Tb & Wb & Pb) & c & E).
  assert (X : match put io q dq a, put io q dq b with
    | Ok a', Ok b' => exists c', a' = set_cache b' (Some c') | Throw, Throw | UB, UB => True | _, _ => False end).
  { unfold put. rewrite Hl. cbn [bind]. subst a. destruct (tk_cache _ Tb) as [c0 E0]. pose proof (like_set_q q b c (ex_intro _ c0 E0)) as X.
    destruct (called (set_q q (set_cache b (Some c)))) as [a1| |], (called (set_q q b)) as [b1| |] eqn:Eb; cbn [bind]; try tauto.
    destruct X as [c' ->]. apply like_set_dq. apply called_inv in Eb. destruct Eb as [[] Eb]. apply (tk_cache _ (tree_set_q _ _ _ Tb Eb)). }
  unfold like_b. destruct (put io q dq a) as [a'| |] eqn:Ea, (put io q dq b) as [b'| |] eqn:Eb; try tauto.
  split; [split; [exact (tree_put io q dq a a' Ta Ea)|split; [exact (inv_put io q dq a a' Wa Ea)|exact (proper_put io q dq a a' Pa Ea)]]|].
  split; [split; [exact (tree_put io q dq b b' Tb Eb)|split; [exact (inv_put io q dq b b' Wb Eb)|exact (proper_put io q dq b b' Pb Eb)]]|exact X].
Qed.
Lemma like_integrate fd io dt a b : i_limits io = false -> (forall a b, like a b -> like_r (fd a) (fd b)) -> like a b -> like_b (integrate fd io dt a) (integrate fd io dt b).
Proof.
  intros Hl FD TW. unfold integrate. destruct (like_fields _ _ TW) as (-> & -> & ->).
  apply like_bind_b; [apply FD; auto|]. intros a1 b1 v T1. destruct (i_method io).
  - apply like_put; auto.
  - apply like_b_bind; [apply like_put; auto|]. intros a2 b2 T2. destruct (like_fields _ _ T2) as (_ & -> & _).
    apply like_bind_b; [apply FD; auto|]. intros a3 b3 v3 T3. apply like_put; auto.
  - apply like_b_bind; [apply like_put; auto|]. intros a2 b2 T2. destruct (like_fields _ _ T2) as (_ & -> & _).
    apply like_bind_b; [apply FD; auto|]. intros a3 b3 v3 T3. apply like_b_bind; [apply like_put; auto|]. intros a4 b4 T4. destruct (like_fields _ _ T4) as (_ & -> & _).
    apply like_bind_b; [apply FD; auto|]. intros a5 b5 v5 T5. apply like_b_bind; [apply like_put; auto|]. intros a6 b6 T6. destruct (like_fields _ _ T6) as (_ & -> & _).
    apply like_bind_b; [apply FD; auto|]. intros a7 b7 v7 T7. apply like_put; auto.
Qed.
Lemma like_wrap {A} (f : A -> answer) (x y : res (body * A)) : (forall u v, f u = f v -> u = v) -> like_r (wrap f x) (wrap f y) -> like_r x y.
Proof. intros I. destruct x as [[a v]| |], y as [[b w]| |]; cbn; try tauto. intros [H T]. split; auto. Qed.
Lemma c52_fresh h ab mem pd joint threshold grav st : reached solve pinv h ab -> base_fixed false h = true -> proper ab ->
  like_r (joint_space_control solve pd joint threshold grav st ab) (joint_space_control solve pd joint threshold grav st (cold ab mem)).
Proof.
  intros R B P. destruct (reached_wfc solve pinv h ab R B) as [T W].
  assert (LK : like ab (cold ab mem)).
  { split; [auto|]. split; [split; [apply cold_tree; auto|split; [apply cold_wfc|apply proper_cold; auto]]|]. destruct (tk_cache _ T) as [c E]. exists c. unfold cold. destruct ab; cbn in *; subst; reflexivity. }
  unfold joint_space_control. change (ab_q (cold ab mem)) with (ab_q ab). change (ab_dq (cold ab mem)) with (ab_dq ab).
  destruct (pd (ab_q ab) (match joint with Some q => q | None => ab_q ab end) (ab_dq ab)) as [ddq err].
  apply like_bind.
  - pose proof (like_eom ab (cold ab mem) (QID ddq no_force (IdOpts grav false false (klit 1 100))) LK eq_refl) as X. cbn [ask] in X. apply like_wrap in X; [exact X|]. intros u v H; congruence.
  - intros a b tau LA. destruct (like_fields _ _ LA) as (_ & E & _). rewrite E. destruct st as [dt|]; [|cbn; auto].
    assert (X : like_b (integrate (sim_fd solve false tau no_force (IdOpts true true false (klit 1 100))) (IntOpts false MRk4) dt a)
                       (integrate (sim_fd solve false tau no_force (IdOpts true true false (klit 1 100))) (IntOpts false MRk4) dt b)).
    { apply like_integrate; auto. intros a1 b1 L1. pose proof (like_eom a1 b1 (QFD tau no_force (IdOpts true true false (klit 1 100))) L1 eq_refl) as X. cbn [ask] in X.
      apply like_wrap in X; [exact X|]. intros u v H; congruence. }
    destruct (integrate _ _ _ a), (integrate _ _ _ b); cbn in *; try tauto.
Qed.
Lemma c52_fresh_out h ab mem pd joint threshold grav st : reached solve pinv h ab -> base_fixed false h = true -> proper ab ->
  bind (joint_space_control solve pd joint threshold grav st ab) (fun '(a, (tau, conv)) => Ok (ab_q a, ab_dq a, tau, conv)) =
  bind (joint_space_control solve pd joint threshold grav st (cold ab mem)) (fun '(a, (tau, conv)) => Ok (ab_q a, ab_dq a, tau, conv)).
Proof.
  intros R B P. pose proof (c52_fresh h ab mem pd joint threshold grav st R B P) as X.
  destruct (joint_space_control solve pd joint threshold grav st ab) as [[a [t1 k1]]| |], (joint_space_control solve pd joint threshold grav st (cold ab mem)) as [[b [t2 k2]]| |]; cbn in *; try tauto.
  destruct X as [E L']. inversion E; subst. destruct (like_fields _ _ L') as (-> & -> & _). reflexivity.
Qed.
End Laws.

From Coq Require Import Reals Lra.
From Verif Require Import Instances.
Section Real.
Local Open Scope R_scope.
Lemma c52_arrived (t : option (@K RScal * @K RScal)) (err dq : list (@K RScal)) :
  @arrived RScal t err dq <-> forall x dx, t = Some (x, dx) -> sqrt (sqsum err) < x /\ sqrt (sqsum dq) < dx.
Proof.
  assert (EU : forall l : list R, @euclid RScal l = sqrt (sqsum l)).
  { intros l. unfold euclid. change (@fold_left (@K RScal) (@K RScal) (@kadd RScal) (map (fun a => @kmul RScal a a) l) (@k0 RScal)) with (fold_left Rplus (map (fun b => b * b) l) 0).
    rewrite sqsum_left, Rplus_0_l. reflexivity. }
  destruct t as [[x dx]|]; cbn [arrived].
  - rewrite !EU. change (@klt RScal) with Rltb. unfold Rltb. split.
    + intros [H1 H2] x' dx' E. inversion E; subst. destruct (Rlt_dec _ _); [|discriminate]. destruct (Rlt_dec (sqrt (sqsum dq)) _); [|discriminate]. auto.
    + intros H. destruct (H x dx eq_refl) as [H1 H2]. destruct (Rlt_dec _ _); [|contradiction]. destruct (Rlt_dec (sqrt (sqsum dq)) _); [|contradiction]. auto.
  - split; [intros _ x dx E; discriminate|auto].
Qed.
End Real.
