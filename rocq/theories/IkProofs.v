(** Proofs about inverse kinematics. *)
From Coq Require Import List Arith ZArith Bool Lia.
From Verif Require Import Scalar Base Spatial Joint Body Kin InvDyn FwdDyn Opspace OpspaceAba Deriv Sim Ops Control Ik Specs SpecCache SpecKin SpecDyn SpecOps SpecControl SpecIk
  TreeProofs CacheProofs CacheOps KinProofs BigSum DynProofs DynApi OpsCache OpsApi OpsAlg OpsTask ControlProofs TwinProofs.
Import ListNotations.

Section Gen.
Context {S : Scal} {AC : AddComm S} {ES : EqSound S}.
Local Open Scope k_scope.
Variable solve : list (list K) -> list K -> list K.
Variable pinv : list (list K) -> K -> list (list K) * bool.

(** The robots of one call: only positions, velocities and the cache change. *)
Definition alike (a0 a : body) : Prop :=
  exists c q dq, a = Body (ab_name a0) (ab_graphics a0) c (ab_dof a0) (ab_rbs a0) q dq (ab_g a0) (ab_loads a0) (ab_Tbase a0) (ab_Ibase a0) (ab_anc a0) (ab_sub a0).
Lemma alike_refl a : alike a a.
Proof. destruct a. repeat eexists. Qed.
Lemma alike_cache a0 a c : alike a0 a -> alike a0 (set_cache a (Some c)).
Proof. intros (c0 & q & dq & ->). repeat eexists. Qed.
Lemma alike_put a0 io q dq a a' : alike a0 a -> put io q dq a = Ok a' -> alike a0 a'.
Proof.
  intros (c & q0 & dq0 & E) H. apply put_inv in H. destruct H as (q' & a1 & dq' & E1 & E2).
  assert (A1 : alike a0 a1).
  { revert E1. unfold set_q. destruct (negb _); [discriminate|]. destruct (negb _); [discriminate|]. destruct (veqb _ _); intros X; inversion X; subst; repeat eexists. }
  destruct A1 as (c1 & q1 & dq1 & A1). subst a1. revert E2. unfold set_dq. destruct (negb _); [discriminate|]. destruct (negb _); [discriminate|].
  destruct (veqb _ _); intros X; inversion X; subst; repeat eexists.
Qed.
Variable ab0 : body.
Notation good := (good solve pinv (alike ab0)).
Notation twin := (twin solve pinv (alike ab0)).
Notation safe := (@safe S).

Lemma twin_refl a : good a -> twin a a.
Proof. intros G. split; [auto|]. split; [auto|]. destruct (tk_cache _ (gd_tree _ _ _ _ G)) as [c E]. exists c. destruct a; cbn in *; subst; reflexivity. Qed.
Lemma twin_out a b q a' x : twin a b -> safe q -> ask solve pinv q a = Ok (a', x) -> twin a' b /\ outcome (ask solve pinv q b) = Ok x.
Proof.
  intros TW SF E. pose proof TW as (Ga & Gb & c & Ec). pose proof (pair_ask solve pinv (alike ab0) (alike_cache ab0) a b q TW SF) as P. rewrite E in P.
  destruct (ask solve pinv q b) as [[b' y]| |] eqn:Eb; cbn in P; try tauto. destruct P as [<- (Ga' & _)]. split; [|reflexivity].
  split; [auto|]. split; [auto|]. destruct (ask_frame solve pinv _ _ _ _ E) as [c' ->]. exists c'. subst a. reflexivity.
Qed.
Lemma safe_oid J ddx N : safe (QoID J ddx N (fun _ => None) true (OpsOpts false false false 0 (klit 1 100) 0)).
Proof. split; [intros ? [<-|[]]; reflexivity|auto]. Qed.
Lemma twin_oid a b J ddx N a' N' t : twin a b -> q_ops_InverseDynamics solve pinv J ddx N no_force true ops_default a = Ok (a', (N', t)) ->
  twin a' b /\ outcome (ask solve pinv (QoID J ddx N (fun _ => None) true plain_task) b) = Ok (ANull N' t).
Proof. intros TW E. apply (twin_out a b _ a' _ TW (safe_oid J ddx N)). apply ask_oid. exact E. Qed.

Lemma close_on g x R : ik_close g x R = true <-> small (g_err_pos g x) /\ small (g_err_ori g R).
Proof. unfold ik_close, small, sq_norm. rewrite !fold_left_map_sq, andb_true_iff. reflexivity. Qed.

Lemma good_integrate fd io dt a a' : (forall a a' x, good a -> fd a = Ok (a', x) -> good a') -> good a -> integrate fd io dt a = Ok a' -> good a'.
Proof. intros F G E. refine (integrate_ind good fd io dt a a' F _ G E). intros b b' q dq Gb Eb. exact (good_put solve pinv (alike ab0) (alike_put ab0) io q dq b b' Gb Eb). Qed.
Lemma good_fd tau fe o a a' x : good a -> sim_fd solve false tau fe o a = Ok (a', x) -> good a'.
Proof. intros G E. refine (proj1 (good_ask solve pinv (alike ab0) (alike_cache ab0) a (QFD tau fe o) a' (AVec x) G _ _)); [intros ? []|]. cbn [ask]. unfold sim_fd in E. rewrite E. reflexivity. Qed.
(** The torques have as many entries as the robot has joints. *)
Lemma oid_len J ddx M b N t : outcome (ask solve pinv (QoID J ddx (Some M) (fun _ => None) true plain_task) b) = Ok (ANull N t) -> List.length t = ab_dof b /\ exists N', N = Some N'.
Proof. apply oid_length. Qed.

Lemma jac_some a link off cols : good a -> outcome (ask solve pinv (QJac link off) a) = Ok (AMots cols) -> (0 < ab_dof a)%nat.
Proof.
  intros G. cbn [ask]. rewrite outcome_wrap. destruct (out_Jac a (gd_tree _ _ _ _ G) (gd_wfc _ _ _ _ G) link off) as (o' & _ & ->).
  destruct (idx (ab_dof a) link) as [l|] eqn:Q; [|discriminate]. apply idx_spec in Q. lia.
Qed.
(** The joint task needs an identity of the right size. *)
Lemma lid_fits n ddx N a r : q_ops_InverseDynamics solve pinv (lid n) ddx N no_force true ops_default a = Ok r -> n <> 0%nat -> n = ab_dof a.
Proof.
  intros E Hn. assert (X : shape (List.length (lid n)) (ab_dof a) (lid n) = true).
  { revert E. unfold q_ops_InverseDynamics, with_J. destruct (negb _); [discriminate|]. destruct (shape (List.length (lid n)) (ab_dof a) (lid n)) eqn:Q; [auto|].
    destruct N as [[|? ?]|]; intros E; [discriminate E| |discriminate E]. match type of E with (if ?c then _ else _) = _ => destruct c end; discriminate E. }
  unfold shape in X. apply andb_prop in X. destruct X as [_ X]. rewrite forallb_forall in X. specialize (X (vec n (fun j => if Nat.eqb 0 j then 1 else 0))).
  rewrite Nat.eqb_eq in X. rewrite <- X; [rewrite vec_length; reflexivity|].
  unfold lid, mat. apply (in_map (fun i => vec n (fun j => if Nat.eqb i j then 1 else 0)) (seq 0 n) 0%nat). apply in_seq. lia.
Qed.

Section Goal.
Variables (g : ik_goal) (link : Z) (off : v3) (q_des : list K).
Notation next := (ik_next solve pinv g link off q_des).
Notation goal := (on_goal solve pinv g link (-1) off).
Lemma sz_rows cols : List.length (task_rows None cols) = 6%nat.
Proof. reflexivity. Qed.

Lemma loop_ok fuel : forall sz a sz' met a', good a -> sz <> Some 0%nat ->
  ik_loop solve pinv fuel g link off q_des sz a = Ok (sz', met, a') ->
  exists n b, iterates next n a b /\ ab_q a' = ab_q b /\ good a' /\ twin a' b /\
    (n = 0%nat \/ sz = None \/ sz = Some (ab_dof ab0)) /\ (sz' = if Nat.eqb n 0 then sz else Some (ab_dof ab0)) /\ (if met then (n < fuel)%nat /\ goal b else n = fuel).
Proof.
  induction fuel as [|fuel IH]; intros sz a sz' met a' G HS E.
  { cbn in E. inversion E; subst. exists 0%nat, a'. split; [constructor|]. split; [auto|]. split; [auto|]. split; [apply twin_refl; auto|]. split; [auto|]. auto. }
  cbn [ik_loop] in E. pose proof (twin_refl a G) as T0.
  destruct (q_Jacobian link off a) as [[a1 cols]| |] eqn:E1; try discriminate. cbn [bind] in E.
  destruct (q_Position link off a1) as [[a2 x]| |] eqn:E2; try discriminate. cbn [bind] in E.
  destruct (q_Orientation (-1) a2) as [[a3 R]| |] eqn:E3; try discriminate. cbn [bind] in E.
  destruct (twin_out a a (QJac link off) a1 (AMots cols) T0 ltac:(split; [intros ? []|auto]) ltac:(cbn [ask]; rewrite E1; reflexivity)) as [T1 A1].
  destruct (twin_out a1 a (QPos link off) a2 (AV3 x) T1 ltac:(split; [intros ? []|auto]) ltac:(cbn [ask]; rewrite E2; reflexivity)) as [T2 A2].
  destruct (twin_out a2 a (QOri (-1)) a3 (AM3 R) T2 ltac:(split; [intros ? []|auto]) ltac:(cbn [ask]; rewrite E3; reflexivity)) as [T3 A3].
  destruct (twin_fields _ _ _ _ _ T2) as (_ & Q2 & D2 & _), (twin_fields _ _ _ _ _ T3) as (_ & Q3 & D3 & _).
  rewrite Q2, D2, Q3, D3 in E.
  destruct (ik_close g x R) eqn:EC.
  { inversion E; subst sz' met a'. exists 0%nat, a. split; [constructor|]. destruct (twin_fields _ _ _ _ _ T3) as (Q & _). split; [exact Q|]. split; [apply T3|]. split; [auto|]. split; [auto|]. split; [reflexivity|].
    split; [lia|]. exists x, R. apply close_on in EC. tauto. }
  change (jac_rows cols) with (task_jacobian None cols) in E. rewrite rows_eq in E. set (J := task_rows None cols) in *.
  rewrite !rates_lmulv in E by reflexivity. rewrite <- firstn_map, <- skipn_map in E. set (rt := map (rate (ab_dof a) (ab_dq a)) J) in *.
  destruct (ik_task solve pinv J _ _ a3) as [[a4 [N tau]]| |] eqn:E4; try discriminate. cbn [bind] in E.
  unfold ik_task in E4.
  destruct (q_ops_IsSingular solve pinv J 0 a3) as [[a3' s]| |] eqn:E5; try discriminate. cbn [bind] in E4.
  destruct (twin_out a3 a (QoSing J 0) a3' (ABool s) T3 ltac:(split; [intros ? []|auto]) ltac:(cbn [ask]; rewrite E5; reflexivity)) as [T3' A3'].
  set (ddx := g_acc_pos g x (firstn 3 rt)) in *. set (dw := g_acc_ori g R (skipn 3 rt)) in *.
  assert (E4' : q_ops_InverseDynamics solve pinv (if s then firstn 3 J else J) (if s then ddx else ddx ++ dw) (Some []) no_force true ops_default a3' = Ok (a4, (N, tau)))
    by (destruct s; exact E4).
  destruct (twin_oid a3' a _ _ _ a4 N tau T3' E4') as [T4 A4].
  destruct (twin_fields _ _ _ _ _ T4) as (Q4 & Q4' & D4 & _).
  assert (Da : ab_dof a = ab_dof ab0) by (destruct (gd_also _ _ _ _ G) as (? & ? & ? & ->); reflexivity).
  set (n := ik_size sz a4) in *. 
  destruct (ik_advance solve pinv g n q_des N tau a4) as [a5| |] eqn:E6; try discriminate. cbn [bind] in E.
  unfold ik_advance in E6. rewrite Q4, Q4' in E6.
  destruct (q_ops_InverseDynamics solve pinv (lid n) _ N no_force true ops_default a4) as [[a4' [N' t]]| |] eqn:E7; try discriminate. cbn [bind] in E6.
  destruct (twin_oid a4 a _ _ _ a4' N' t T4 E7) as [T4' A7].
  assert (Pos : (0 < ab_dof a)%nat) by (apply (jac_some a link off cols G A1)).
  assert (Hn : n = ab_dof a).
  { rewrite <- D4. apply (lid_fits n _ N a4 _ E7). unfold n, ik_size. destruct sz as [m|]; [intros ->; apply HS; reflexivity|rewrite D4; lia]. }
  assert (G5 : good a5) by (refine (good_integrate _ _ _ a4' a5 _ (proj1 T4') E6); intros; eapply good_fd; eauto).
  destruct (oid_len _ _ _ _ _ _ A4) as [L1 [N0 HN]]. rewrite HN in A7. destruct (oid_len _ _ _ _ _ _ A7) as [L2 _].
  assert (NX : next a a5).
  { split.
    - intros (x' & R' & B1 & B2 & B3). rewrite A2 in B1. rewrite A3 in B2. inversion B1; inversion B2; subst x' R'. apply close_on in B3. congruence.
    - pose proof T4' as (_ & _ & c & Ec).
      exists (IkReading J x R s N tau t), (vadd tau t), a4', c. split; [|split; [apply vadd_length; auto|split; [|split; [exact Ec|]]]].
      + constructor; cbn [k_J k_x k_R k_singular k_N k_main k_joint]; auto; [exists cols; auto|].
        exists N'. rewrite HN. rewrite <- Hn. exact A7.
      + intros i Hi. cbn [k_main k_joint]. change (@coef S) with (@qk S). apply (coef_vadd (ab_dof a)); auto.
      + cbn [step]. change (fun _ : nat => None) with no_force. rewrite E6. reflexivity. }
  destruct (IH (Some n) a5 sz' met a' G5 ltac:(intros X; inversion X; lia) E) as (k & b & I1 & I2 & I3 & I4 & _ & I5 & I6).
  exists (Datatypes.S k), b. split; [econstructor; eauto|]. split; [auto|]. split; [auto|]. split; [auto|]. split; [right; unfold n, ik_size in Hn; destruct sz; [right; congruence|left; auto]|]. split.
  - cbn [Nat.eqb]. rewrite I5. destruct (Nat.eqb k 0); congruence.
  - destruct met; [destruct I6; split; [lia|auto]|lia].
Qed.
End Goal.

(** *** Totality *)
Lemma integrate_total fd io dt a : i_limits io = false -> (forall a, good a -> exists a' x, fd a = Ok (a', x) /\ good a') -> good a ->
  exists a', integrate fd io dt a = Ok a' /\ good a'.
Proof.
  intros Hl F G.
  assert (PT : forall a q dq, good a -> List.length q = ab_dof a -> List.length dq = ab_dof a -> exists a', put io q dq a = Ok a' /\ good a' /\ ab_dof a' = ab_dof a).
  { intros b q dq Gb Lq Ld. pose proof (gd_tree _ _ _ _ Gb) as T.
    assert (X : exists b', put io q dq b = Ok b').
    { unfold put. rewrite Hl. cbn [bind]. unfold set_q. rewrite Lq, (tk_q _ T), Nat.eqb_refl. cbn [negb]. unfold called at 1.
      destruct (veqb (ab_q b) q); cbn [bind]; unfold set_dq; cbn [ab_dof ab_dq]; rewrite Ld, (tk_dq _ T), Nat.eqb_refl; cbn [negb]; destruct (veqb (ab_dq b) dq); cbn [called]; eauto. }
    destruct X as [b' X]. exists b'. split; [auto|]. split; [apply (good_put solve pinv (alike ab0) (alike_put ab0) io q dq b b' Gb X)|].
    destruct (put_frame _ _ _ _ _ X) as [(D & _) _]. exact (eq_sym D). }
  assert (DF : forall a a' x, fd a = Ok (a', x) -> good a -> good a' -> ab_dof a' = ab_dof a).
  { intros b b' x _ [_ _ _ _ (? & ? & ? & ->)] [_ _ _ _ (? & ? & ? & ->)]. reflexivity. }
  unfold integrate. destruct (F a G) as (a1 & x1 & E1 & G1). rewrite E1. cbn [bind]. pose proof (DF _ _ _ E1 G G1) as D1.
  unfold vlin. destruct (i_method io).
  - match goal with |- context [put io (vec _ ?f) (vec _ ?h) a1] => destruct (PT a1 (vec (ab_dof a) f) (vec (ab_dof a) h) G1) as (a' & E & G' & _); try (rewrite vec_length; congruence) end.
    exists a'. split; [exact E|auto].
  - match goal with |- context [put io (vec _ ?f) (vec _ ?h) a1] => destruct (PT a1 (vec (ab_dof a) f) (vec (ab_dof a) h) G1) as (a2 & E2 & G2 & D2); try (rewrite vec_length; congruence) end.
    rewrite E2. cbn [bind]. destruct (F a2 G2) as (a3 & x3 & E3 & G3). rewrite E3. cbn [bind]. pose proof (DF _ _ _ E3 G2 G3) as D3.
    match goal with |- context [put io (vec _ ?f) (vec _ ?h) a3] => destruct (PT a3 (vec (ab_dof a) f) (vec (ab_dof a) h) G3) as (a4 & E4 & G4 & D4); try (rewrite vec_length; congruence) end.
    exists a4. split; [exact E4|auto].
  - match goal with |- context [put io (vec _ ?f) (vec _ ?h) a1] => destruct (PT a1 (vec (ab_dof a) f) (vec (ab_dof a) h) G1) as (a2 & E2 & G2 & D2); try (rewrite vec_length; congruence) end.
    rewrite E2. cbn [bind]. destruct (F a2 G2) as (a3 & x3 & E3 & G3). rewrite E3. cbn [bind]. pose proof (DF _ _ _ E3 G2 G3) as D3.
    match goal with |- context [put io (vec _ ?f) (vec _ ?h) a3] => destruct (PT a3 (vec (ab_dof a) f) (vec (ab_dof a) h) G3) as (a4 & E4 & G4 & D4); try (rewrite vec_length; congruence) end.
    rewrite E4. cbn [bind]. destruct (F a4 G4) as (a5 & x5 & E5 & G5). rewrite E5. cbn [bind]. pose proof (DF _ _ _ E5 G4 G5) as D5.
    match goal with |- context [put io (vec _ ?f) (vec _ ?h) a5] => destruct (PT a5 (vec (ab_dof a) f) (vec (ab_dof a) h) G5) as (a6 & E6 & G6 & D6); try (rewrite vec_length; congruence) end.
    rewrite E6. cbn [bind]. destruct (F a6 G6) as (a7 & x7 & E7 & G7). rewrite E7. cbn [bind]. pose proof (DF _ _ _ E7 G6 G7) as D7.
    match goal with |- context [put io (vec _ ?f) (vec _ ?h) a7] => destruct (PT a7 (vec (ab_dof a) f) (vec (ab_dof a) h) G7) as (a8 & E8 & G8 & D8); try (rewrite vec_length; congruence) end.
    exists a8. split; [exact E8|auto].
Qed.
Lemma fd_total tau fe o a : good a -> List.length tau = ab_dof a -> exists a' x, sim_fd solve false tau fe o a = Ok (a', x) /\ good a'.
Proof.
  intros G Hl. assert (X : exists a' x, sim_fd solve false tau fe o a = Ok (a', x)).
  { unfold sim_fd, q_ForwardDynamics. rewrite Hl, Nat.eqb_refl. unfold on_cache. destruct (tk_cache _ (gd_tree _ _ _ _ G)) as [c ->].
    unfold forward_dynamics. destruct (inverse_dynamics _ _ _ _ _) as [c' b]. cbn [bind]. eauto. }
  destruct X as (a' & x & X). exists a', x. split; [auto|]. eapply good_fd; eauto.
Qed.
Lemma oid_good a J ddx M m : good a -> sized m (ab_dof ab0) J -> List.length ddx = m -> (M <> [] -> shape (ab_dof ab0) (ab_dof ab0) M = true) ->
  exists a' N' t, q_ops_InverseDynamics solve pinv J ddx (Some M) no_force true ops_default a = Ok (a', (Some N', t)) /\ good a' /\ List.length t = ab_dof ab0 /\
    (N' <> [] -> shape (ab_dof ab0) (ab_dof ab0) N' = true).
Proof.
  intros G HJ Hd HN. pose proof G as [T W O O0 (c & q & dq & Ea)]. assert (D : ab_dof a = ab_dof ab0) by (rewrite Ea; reflexivity).
  pose proof (out_oID solve pinv a T W 0 O J ddx (Some M) no_force true ops_default eq_refl ltac:(auto)) as X.
  assert (PRE : oid_pre a J ddx (Some M) = true).
  { unfold oid_pre, sh. rewrite D, (shape_ok m _ _ HJ), Hd, (proj1 HJ), Nat.eqb_refl. destruct M as [|r M]; auto. rewrite HN by discriminate. reflexivity. }
  rewrite PRE in X. unfold oid_val in X. cbn [ops_default p_cc bind] in X. destruct (out_ok _ _ X) as [a' A]. eexists a', _, _. split; [exact A|]. split; [|split].
  - refine (proj1 (good_ask solve pinv (alike ab0) (alike_cache ab0) a _ a' _ G _ (ask_oid solve pinv _ _ _ _ _ _ _ A))). intros ? [<-|[]]; reflexivity.
  - pose proof (ask_oid solve pinv _ _ _ _ _ _ _ A) as A'. rewrite <- D. apply (oid_len J ddx M a _ _ (f_equal outcome A')).
  - intros _. rewrite D.
    assert (SQ : forall f, shape (ab_dof ab0) (ab_dof ab0) (mat (ab_dof ab0) (ab_dof ab0) f) = true).
    { intros f. unfold shape. rewrite mat_length, Nat.eqb_refl. apply forallb_forall. intros r Hr. unfold mat in Hr. apply in_map_iff in Hr. destruct Hr as (i & <- & _). apply Nat.eqb_eq, vec_length. }
    destruct M; apply SQ.
Qed.
Lemma sing_good a J e m : good a -> sized m (ab_dof ab0) J -> exists a' b, q_ops_IsSingular solve pinv J e a = Ok (a', b) /\ good a'.
Proof.
  intros G HJ. pose proof G as [T W O O0 (c & q & dq & Ea)]. assert (D : ab_dof a = ab_dof ab0) by (rewrite Ea; reflexivity).
  pose proof (out_oSing solve pinv a T W O0 J e) as X. unfold sh in X. rewrite D, (shape_ok m _ _ HJ) in X.
  destruct (out_ok _ _ X) as [a' A]. exists a'. eexists. split; [exact A|].
  refine (proj1 (good_ask solve pinv (alike ab0) (alike_cache ab0) a (QoSing J e) a' (ABool _) G _ _)); [intros ? []|]. cbn [ask]. rewrite A. reflexivity.
Qed.
Lemma loop_total g link off q_des l : idx (ab_dof ab0) link = Some l ->
  (forall x dx, List.length (g_acc_pos g x dx) = 3%nat) -> (forall R w, List.length (g_acc_ori g R w) = 3%nat) ->
  (forall a b c, List.length (g_acc_joint g a b c) = ab_dof ab0) ->
  forall fuel sz a, good a -> sz = None \/ sz = Some (ab_dof ab0) -> exists r, ik_loop solve pinv fuel g link off q_des sz a = Ok r.
Proof.
  intros IX H1 H2 H3. set (n := ab_dof ab0) in *. induction fuel as [|fuel IH]; intros sz a G HS; [cbn; eauto|]. cbn [ik_loop].
  assert (GD : forall b, good b -> ab_dof b = n) by (intros b [_ _ _ _ (? & ? & ? & ->)]; reflexivity).
  assert (GA : forall b b' q x, good b -> ask solve pinv q b = Ok (b', x) -> thresholds q = [] -> good b').
  { intros b b' q x Gb Eb Th. apply (proj1 (good_ask solve pinv (alike ab0) (alike_cache ab0) b q b' x Gb ltac:(rewrite Th; intros ? []) Eb)). }
  destruct (out_Jac a (gd_tree _ _ _ _ G) (gd_wfc _ _ _ _ G) link off) as (o' & _ & X). rewrite (GD a G), IX in X. destruct (out_ok _ _ X) as [a1 A1]. rewrite A1. cbn [bind].
  set (cols := vec n (jacv a l o')) in *.
  assert (G1 : good a1) by (apply (GA a a1 (QJac link off) (AMots cols) G); [cbn [ask]; rewrite A1; reflexivity|reflexivity]).
  pose proof (out_Pos a1 link off) as X2. rewrite (out_Tw a1 (gd_tree _ _ _ _ G1) (gd_wfc _ _ _ _ G1)), (GD a1 G1), IX in X2. cbn [bind] in X2. destruct (out_ok _ _ X2) as [a2 A2]. rewrite A2. cbn [bind].
  set (x := iso_app _ _) in *.
  assert (G2 : good a2) by (apply (GA a1 a2 (QPos link off) (AV3 x) G1); [cbn [ask]; rewrite A2; reflexivity|reflexivity]).
  assert (Hn : (0 < n)%nat) by (apply idx_spec in IX; lia).
  assert (IY : idx n (-1) = Some (n - 1)%nat). { unfold idx, norm_idx. cbn [Z.ltb Z.compare]. replace ((0 <=? -1 + Z.of_nat n)%Z) with true by (symmetry; apply Z.leb_le; lia). replace ((-1 + Z.of_nat n <? Z.of_nat n)%Z) with true by (symmetry; apply Z.ltb_lt; lia). cbn [andb]. f_equal. lia. }
  pose proof (out_Ori a2 (-1)) as X3. rewrite (out_Tw a2 (gd_tree _ _ _ _ G2) (gd_wfc _ _ _ _ G2)), (GD a2 G2), IY in X3. cbn [bind] in X3. destruct (out_ok _ _ X3) as [a3 A3]. rewrite A3. cbn [bind].
  set (Rm := rot _) in *.
  assert (G3 : good a3) by (apply (GA a2 a3 (QOri (-1)) (AM3 Rm) G2); [cbn [ask]; rewrite A3; reflexivity|reflexivity]).
  destruct (ik_close g x Rm); [eauto|].
  set (J := jac_rows cols). assert (HJ : sized 6 n J) by (split; [reflexivity|]; repeat constructor; rewrite map_length; apply vec_length).
  assert (HJ3 : sized 3 n (firstn 3 J)) by (split; [reflexivity|]; repeat constructor; rewrite map_length; apply vec_length).
  unfold ik_task. destruct (sing_good a3 J 0 6 G3 HJ) as (b3 & s & Es & Gs). rewrite Es. cbn [bind].
  assert (M : exists a4 N t, (if s then q_ops_InverseDynamics solve pinv (firstn 3 J) (g_acc_pos g x (lmulv 3 (ab_dof a2) (firstn 3 J) (ab_dq a2))) (Some []) no_force true ops_default b3
     else q_ops_InverseDynamics solve pinv J (g_acc_pos g x (lmulv 3 (ab_dof a2) (firstn 3 J) (ab_dq a2)) ++ g_acc_ori g Rm (lmulv 3 (ab_dof a3) (skipn 3 J) (ab_dq a3))) (Some []) no_force true ops_default b3) = Ok (a4, (Some N, t)) /\
     good a4 /\ List.length t = n /\ (N <> [] -> shape n n N = true)).
  { destruct s.
    - apply (oid_good b3 (firstn 3 J) _ [] 3 Gs HJ3 (H1 _ _)). intros X4; elim X4; reflexivity.
    - apply (oid_good b3 J _ [] 6 Gs HJ); [rewrite app_length, H1, H2; reflexivity|]. intros X4; elim X4; reflexivity. }
  destruct M as (a4 & N & t & EM & G4 & Lt & HN). fold J. rewrite EM. cbn [bind].
  assert (SZ : ik_size sz a4 = n) by (unfold ik_size; destruct HS as [-> | ->]; [apply GD; auto|reflexivity]). rewrite SZ.
  unfold ik_advance. assert (HI : sized n n (lid n)) by (apply mat_square).
  destruct (oid_good a4 (lid n) (g_acc_joint g q_des (ab_q a4) (ab_dq a4)) N n G4 HI (H3 _ _ _) HN) as (a5 & N5 & t5 & E5 & G5 & L5 & _).
  match goal with |- context [bind (bind ?X _) _] => replace X with (Ok (a5, (Some N5, t5))) by (symmetry; exact E5) end. cbn [bind].
  edestruct (integrate_total (sim_fd solve false (vadd t t5) no_force (IdOpts false true false (klit 1 100))) (IntOpts false MRk4) (1 / klit 1000 1) a5 eq_refl) as (a6 & E6 & G6).
  - intros b Gb. apply fd_total; auto. rewrite (GD b Gb). apply vadd_length; auto.
  - exact G5.
  - rewrite E6. cbn [bind]. apply IH; auto.
Qed.

End Gen.

Section Fin.
Context {S : Scal} {AC : AddComm S} {ES : EqSound S}.
Local Open Scope k_scope.
Variable solve : list (list K) -> list K -> list K.
Variable pinv : list (list K) -> K -> list (list K) * bool.

Definition copied (ab : body) : body :=
  Body (ab_name ab) (ab_graphics ab) (ab_cache ab) (ab_dof ab) (ab_rbs ab) (ab_q ab) (ab_dq ab) (ab_g ab) (ab_loads ab) (ab_Tbase ab) unit_mass (ab_anc ab) (ab_sub ab).
Lemma copy_ok ab : tree_ok ab -> body_copy ab = Ok (copied ab).
Proof. intros T. destruct (tk_cache _ T) as [c E]. unfold body_copy, copied. rewrite E. reflexivity. Qed.
Lemma good_copied (also : body -> Prop) ab : tree_ok ab -> wfc ab -> wop solve pinv (Some k0) ab -> wop solve pinv None ab -> also (copied ab) -> good solve pinv also (copied ab).
Proof.
  intros T W O O0 AL. assert (ST : step solve pinv OCopy ab = Some (copied ab)) by (cbn [step]; rewrite copy_ok; auto).
  constructor; auto.
  - exact (tree_step solve pinv OCopy ab _ T ST).
  - destruct W as (c & Ec & V). exists c. split; [exact Ec|]. eapply inv_same_state; [|exact V]. repeat split.
  - apply (wop_step solve pinv (Some k0) OCopy ab _ T W O); auto. exact I.
  - apply (wop_step solve pinv None OCopy ab _ T W O0); auto. exact I.
Qed.
Lemma reached_good h ab : reached solve pinv h ab -> base_fixed false h = true -> one_threshold k0 h -> good solve pinv (alike (copied ab)) (copied ab).
Proof.
  intros R B OT. destruct (reached_wfc solve pinv h ab R B) as [T W].
  apply good_copied; auto; [apply (reached_wop solve pinv (Some k0) h ab R B (oone_some k0 h OT))|apply (reached_wop solve pinv None h ab R B (oone_none h))|apply alike_refl].
Qed.

(** Only the poses of the links matter to the goal. *)
Lemma on_goal_tw g link turn off a : tree_ok a -> wfc a ->
  (on_goal solve pinv g link turn off a <-> exists l t, idx (ab_dof a) link = Some l /\ idx (ab_dof a) turn = Some t /\ small (g_err_pos g (iso_app (twv a l) off)) /\ small (g_err_ori g (rot (twv a t)))).
Proof.
  intros T W. unfold on_goal. cbn [ask]. rewrite !outcome_wrap, out_Pos, out_Ori, !(out_Tw a T W).
  destruct (idx (ab_dof a) link) as [l|]; cbn [bind].
  - destruct (idx (ab_dof a) turn) as [t|]; cbn [bind].
    + split.
      * intros (x & R & E1 & E2 & H). inversion E1; inversion E2; subst. exists l, t. auto.
      * intros (l' & t' & E1 & E2 & H). inversion E1; inversion E2; subst. eauto 8.
    + split; [intros (? & ? & _ & E & _); discriminate|intros (? & ? & _ & E & _); discriminate].
  - split; [intros (? & ? & E & _); discriminate|intros (? & ? & E & _); discriminate].
Qed.
Lemma twv_same a b : ab_rbs a = ab_rbs b -> ab_Tbase a = ab_Tbase b -> ab_q a = ab_q b -> ab_anc a = ab_anc b -> twv a = twv b.
Proof. destruct a, b. cbn. intros -> -> -> ->. reflexivity. Qed.
Lemma on_goal_same g link turn off a b : tree_ok a -> wfc a -> tree_ok b -> wfc b -> ab_dof a = ab_dof b -> ab_rbs a = ab_rbs b -> ab_Tbase a = ab_Tbase b -> ab_anc a = ab_anc b -> ab_q a = ab_q b ->
  on_goal solve pinv g link turn off a -> on_goal solve pinv g link turn off b.
Proof.
  intros Ta Wa Tb Wb E1 E2 E3 E4 E5. rewrite (on_goal_tw g link turn off a Ta Wa), (on_goal_tw g link turn off b Tb Wb), E1, (twv_same a b) by auto. auto.
Qed.

Lemma goal_loop g link off q_des fuel sz a : good solve pinv (alike a) a -> on_goal solve pinv g link (-1) off a ->
  exists a', ik_loop solve pinv (Datatypes.S fuel) g link off q_des sz a = Ok (sz, true, a') /\ ab_q a' = ab_q a.
Proof.
  intros G H. cbn [ik_loop]. assert (T0 : twin solve pinv (alike a) a a) by (apply twin_refl; exact G).
  pose proof T0 as [Ga _]. destruct H as (x & Rm & HP & HO & HC).
  assert (XJ : exists a1 cols, q_Jacobian link off a = Ok (a1, cols)).
  { pose proof (gd_tree _ _ _ _ Ga) as Ta. pose proof (gd_wfc _ _ _ _ Ga) as Wa. destruct (out_Jac a Ta Wa link off) as (o' & _ & X).
    cbn [ask] in HP. rewrite outcome_wrap, out_Pos, (out_Tw a Ta Wa) in HP. destruct (idx (ab_dof a) link) as [l|]; [|discriminate]. destruct (out_ok _ _ X) as [a1 A1]. eauto. }
  destruct XJ as (a1 & cols & E1). rewrite E1. cbn [bind].
  destruct (twin_out solve pinv a a a (QJac link off) a1 (AMots cols) T0 ltac:(split; [intros ? []|auto]) ltac:(cbn [ask]; rewrite E1; reflexivity)) as [T1 A1].
  pose proof (pair_ask solve pinv (alike a) (alike_cache a) a1 a (QPos link off) T1 ltac:(split; [intros ? []|auto])) as P1.
  destruct (ask solve pinv (QPos link off) a) as [[b1 y]| |] eqn:Eb; cbn in HP; try discriminate. inversion HP; subst y.
  cbn [ask] in P1. destruct (q_Position link off a1) as [[a2 x2]| |] eqn:E2; cbn in P1; try tauto. destruct P1 as [P1 _]. inversion P1; subst x2. cbn [bind].
  destruct (twin_out solve pinv a a1 a (QPos link off) a2 (AV3 x) T1 ltac:(split; [intros ? []|auto]) ltac:(cbn [ask]; rewrite E2; reflexivity)) as [T2 A2].
  pose proof (pair_ask solve pinv (alike a) (alike_cache a) a2 a (QOri (-1)) T2 ltac:(split; [intros ? []|auto])) as P2.
  destruct (ask solve pinv (QOri (-1)) a) as [[b2 y]| |] eqn:Eb2; cbn in HO; try discriminate. inversion HO; subst y.
  cbn [ask] in P2. destruct (q_Orientation (-1) a2) as [[a3 R3]| |] eqn:E3; cbn in P2; try tauto. destruct P2 as [P2 _]. inversion P2; subst R3. cbn [bind].
  apply close_on in HC. rewrite HC. cbn [bind].
  destruct (twin_out solve pinv a a2 a (QOri (-1)) a3 (AM3 Rm) T2 ltac:(split; [intros ? []|auto]) ltac:(cbn [ask]; rewrite E3; reflexivity)) as [T3 A3].
  destruct (twin_fields _ _ _ _ _ T3) as (Q3 & _). exists a3. split; [reflexivity|exact Q3].
Qed.

Section Call.
Variables (h : list op) (ab : body).
Hypothesis R : reached solve pinv h ab.
Hypothesis B : base_fixed false h = true.
Hypothesis OT : one_threshold k0 h.
Let T := proj1 (reached_wfc solve pinv h ab R B).
Let W := proj2 (reached_wfc solve pinv h ab R B).
Let G := reached_good h ab R B OT.
Variables (g : ik_goal) (link : Z) (off : v3).
Notation next := (ik_next solve pinv g link off (ab_q ab)).
Notation goal := (on_goal solve pinv g link (-1) off).

Lemma c51_steps sz sz' met q : sz <> Some 0%nat -> inverse_kinematics solve pinv g link off sz ab = Ok (sz', met, q) ->
  exists n a b, body_copy ab = Ok a /\ iterates next n a b /\ q = ab_q b /\ (n = 0%nat \/ sz = None \/ sz = Some (ab_dof ab)) /\
    sz' = (if Nat.eqb n 0 then sz else Some (ab_dof ab)) /\ (if met then (n < Z.to_nat 10000)%nat /\ goal b else n = Z.to_nat 10000).
Proof.
  intros HS E. unfold inverse_kinematics in E. rewrite (copy_ok ab T) in E. cbn [bind] in E.
  destruct (ik_loop solve pinv ik_iterations g link off (ab_q (copied ab)) sz (copied ab)) as [[[s m] a']| |] eqn:EL; try discriminate. cbn [bind] in E.
  inversion E; subst s m q. destruct (loop_ok solve pinv (copied ab) g link off (ab_q (copied ab)) ik_iterations sz (copied ab) sz' met a' G HS EL) as (n & b & I1 & I2 & I3 & I4 & I5 & I6 & I7).
  exists n, (copied ab), b. split; [apply copy_ok; exact T|]. split; [exact I1|]. split; [exact I2|]. split; [exact I5|]. split; [exact I6|exact I7].
Qed.
Lemma c51_result sz sz' met q : sz <> Some 0%nat -> inverse_kinematics solve pinv g link off sz ab = Ok (sz', met, q) ->
  List.length q = ab_dof ab /\ exists ab', at_q ab q ab' /\ ab_q ab' = q /\ (met = true -> goal ab').
Proof.
  intros HS E. unfold inverse_kinematics in E. rewrite (copy_ok ab T) in E. cbn [bind] in E.
  destruct (ik_loop solve pinv ik_iterations g link off (ab_q (copied ab)) sz (copied ab)) as [[[s m] a']| |] eqn:EL; try discriminate. cbn [bind] in E.
  inversion E; subst s m q. destruct (loop_ok solve pinv (copied ab) g link off (ab_q (copied ab)) ik_iterations sz (copied ab) sz' met a' G HS EL) as (n & b & I1 & I2 & I3 & I4 & I5 & I6 & I7).
  pose proof (gd_tree _ _ _ _ I3) as T'. pose proof (gd_also _ _ _ _ I3) as (c & q & dq & Ea).
  assert (LQ : List.length (ab_q a') = ab_dof ab) by (rewrite (tk_q _ T'), Ea; reflexivity). split; [exact LQ|].
  assert (X : exists ab', set_q (ab_q a') ab = Ret ab' tt).
  { unfold set_q. rewrite LQ, (tk_q _ T), Nat.eqb_refl. cbn [negb]. destruct (veqb _ _); eauto. }
  destruct X as [ab' X]. exists ab'. split; [exact X|].
  assert (Q' : ab_q ab' = ab_q a').
  { revert X. unfold set_q. rewrite LQ, (tk_q _ T), Nat.eqb_refl. cbn [negb]. destruct (veqb _ _) eqn:V; intros X; inversion X; subst ab'; [apply veqb_sound; exact V|reflexivity]. }
  split; [exact Q'|]. intros ->. destruct I7 as [_ GB]. pose proof I4 as (_ & Gb & cb & Eb).
  destruct (set_q_frame _ _ _ X) as [(D1 & D2 & D3 & D4 & D5) _].
  assert (FR : ab_rbs ab' = ab_rbs ab /\ ab_Tbase ab' = ab_Tbase ab /\ ab_anc ab' = ab_anc ab /\ ab_dof ab' = ab_dof ab).
  { revert X. unfold set_q. rewrite LQ, (tk_q _ T), Nat.eqb_refl. cbn [negb]. destruct (veqb _ _); intros X; inversion X; subst ab'; auto. }
  destruct FR as (F1 & F2 & F3 & F4). pose proof (gd_also _ _ _ _ Gb) as (c' & q' & dq' & Eb').
  refine (on_goal_same g link (-1) off b ab' (gd_tree _ _ _ _ Gb) (gd_wfc _ _ _ _ Gb) (tree_set_q _ _ _ T X) (inv_set_q _ _ _ W X) _ _ _ _ _ GB); rewrite ?F1, ?F2, ?F3, ?F4, ?Q', ?I2; [| | | |reflexivity]; rewrite Eb'; reflexivity.
Qed.
Lemma c51_total sz l : idx (ab_dof ab) link = Some l ->
  (forall x dx, List.length (g_acc_pos g x dx) = 3%nat) -> (forall R w, List.length (g_acc_ori g R w) = 3%nat) ->
  (forall a b c, List.length (g_acc_joint g a b c) = ab_dof ab) -> sz = None \/ sz = Some (ab_dof ab) ->
  exists r, inverse_kinematics solve pinv g link off sz ab = Ok r.
Proof.
  intros IX H1 H2 H3 HS. unfold inverse_kinematics. rewrite (copy_ok ab T). cbn [bind].
  destruct (loop_total solve pinv (copied ab) g link off (ab_q (copied ab)) l IX H1 H2 H3 ik_iterations sz (copied ab) G HS) as [[[s m] a'] ->]. cbn [bind]. eauto.
Qed.
Lemma goal_copied turn : on_goal solve pinv g link turn off (copied ab) <-> on_goal solve pinv g link turn off ab.
Proof.
  pose proof (gd_tree _ _ _ _ G) as T'. pose proof (gd_wfc _ _ _ _ G) as W'.
  split; apply on_goal_same; auto.
Qed.
Lemma c51_at_goal sz : goal ab -> inverse_kinematics solve pinv g link off sz ab = Ok (sz, true, ab_q ab).
Proof.
  intros H. apply goal_copied in H. unfold inverse_kinematics. rewrite (copy_ok ab T). cbn [bind]. unfold ik_iterations. change (Z.to_nat 10000) with (Datatypes.S (Z.to_nat 9999)).
  destruct (goal_loop g link off (ab_q (copied ab)) (Z.to_nat 9999) sz (copied ab) G H) as (a' & E & Q). rewrite E. cbn [bind]. rewrite Q. reflexivity.
Qed.
Lemma c51_second n r : n <> 0%nat -> n <> ab_dof ab -> ~ goal ab -> inverse_kinematics solve pinv g link off (Some n) ab <> Ok r.
Proof.
  intros H1 H2 H3 E. destruct r as [[sz' met] q]. destruct (c51_steps (Some n) sz' met q ltac:(congruence) E) as (k & a & b & C & I1 & I2 & [->|[X|X]] & I4 & I5); try congruence.
  rewrite (copy_ok ab T) in C. inversion C; subst a. inversion I1; subst. destruct met; [|discriminate]. destruct I5 as [_ I5]. apply goal_copied in I5. auto.
Qed.
End Call.
End Fin.

Section Fresh.
Context {S : Scal} {L : ScalLaws S} {PL : PosLaws S} {ES : EqSound S}.
Variable solve : list (list K) -> list K -> list K.
Variable pinv : list (list K) -> K -> list (list K) * bool.
#[local] Instance comm_laws : AddComm S := laws_comm.
Notation twin := (twin solve pinv proper).
Notation pair_of := (pair_of solve pinv proper).
Notation pair_b := (pair_b solve pinv proper).
Definition pair_l (x y : res (option nat * bool * body)) : Prop :=
  match x, y with
  | Ok (s, m, a), Ok (s', m', b) => s = s' /\ m = m' /\ twin a b
  | Throw, Throw | UB, UB => True
  | _, _ => False
  end.
Lemma pair_bind_l {A} (x y : res (body * A)) (f g : body -> A -> res (option nat * bool * body)) :
  pair_of x y -> (forall a b v, twin a b -> pair_l (f a v) (g b v)) ->
  pair_l (bind x (fun '(a, v) => f a v)) (bind y (fun '(a, v) => g a v)).
Proof. destruct x as [[a v]| |], y as [[b w]| |]; cbn; try tauto. intros [-> T] H. auto. Qed.
Lemma pair_b_bind_l (x y : res body) (f g : body -> res (option nat * bool * body)) :
  pair_b x y -> (forall a b, twin a b -> pair_l (f a) (g b)) -> pair_l (bind x f) (bind y g).
Proof. destruct x as [a| |], y as [b| |]; cbn; try tauto. intros T H. auto. Qed.
Lemma oid_pair J ddx N a b : twin a b ->
  pair_of (q_ops_InverseDynamics solve pinv J ddx N no_force true ops_default a) (q_ops_InverseDynamics solve pinv J ddx N no_force true ops_default b).
Proof.
  intros TW. pose proof (pair_ask solve pinv proper proper_cache a b _ TW (safe_oid J ddx N)) as X. cbn [ask] in X.
  refine (pair_wrap solve pinv proper _ _ _ _ X). intros [u1 u2] [v1 v2] E. inversion E; reflexivity.
Qed.
Lemma task_pair J ddx dw a b : twin a b -> pair_of (ik_task solve pinv J ddx dw a) (ik_task solve pinv J ddx dw b).
Proof.
  intros TW. unfold ik_task. apply pair_bind.
  - pose proof (pair_ask solve pinv proper proper_cache a b (QoSing J k0) TW ltac:(split; [intros ? []|auto])) as X. cbn [ask] in X.
    refine (pair_wrap solve pinv proper _ _ _ _ X). intros u v E; congruence.
  - intros a1 b1 [|] T1; apply oid_pair; auto.
Qed.
Lemma advance_pair g n q_des N tau a b : twin a b -> pair_b (ik_advance solve pinv g n q_des N tau a) (ik_advance solve pinv g n q_des N tau b).
Proof.
  intros TW. unfold ik_advance. destruct (twin_fields _ _ _ _ _ TW) as (-> & -> & _).
  apply pair_bind_b; [apply oid_pair; auto|]. intros a1 b1 [N' t] T1. apply pair_integrate; auto; [apply proper_put|].
  intros; apply fd_pair; auto.
Qed.
Lemma loop_pair g link off q_des : forall fuel sz a b, twin a b -> pair_l (ik_loop solve pinv fuel g link off q_des sz a) (ik_loop solve pinv fuel g link off q_des sz b).
Proof.
  induction fuel as [|fuel IH]; intros sz a b TW; [cbn; auto|]. cbn [ik_loop].
  apply pair_bind_l.
  { pose proof (pair_ask solve pinv proper proper_cache a b (QJac link off) TW ltac:(split; [intros ? []|auto])) as X. cbn [ask] in X. refine (pair_wrap solve pinv proper _ _ _ _ X). intros u v E; congruence. }
  intros a1 b1 cols T1. apply pair_bind_l.
  { pose proof (pair_ask solve pinv proper proper_cache a1 b1 (QPos link off) T1 ltac:(split; [intros ? []|auto])) as X. cbn [ask] in X. refine (pair_wrap solve pinv proper _ _ _ _ X). intros u v E; congruence. }
  intros a2 b2 x T2. destruct (twin_fields _ _ _ _ _ T2) as (_ & -> & -> & _). apply pair_bind_l.
  { pose proof (pair_ask solve pinv proper proper_cache a2 b2 (QOri (-1)) T2 ltac:(split; [intros ? []|auto])) as X. cbn [ask] in X. refine (pair_wrap solve pinv proper _ _ _ _ X). intros u v E; congruence. }
  intros a3 b3 R T3. destruct (twin_fields _ _ _ _ _ T3) as (_ & -> & -> & _). destruct (ik_close g x R); [cbn; auto|].
  apply pair_bind_l; [apply task_pair; auto|]. intros a4 b4 [N tau] T4. unfold ik_size. destruct (twin_fields _ _ _ _ _ T4) as (_ & _ & -> & _).
  apply pair_b_bind_l; [apply advance_pair; auto|]. intros a5 b5 T5. apply IH; auto.
Qed.
Lemma c51_fresh h ab mem g link off sz : reached solve pinv h ab -> base_fixed false h = true -> one_threshold k0 h -> proper ab ->
  inverse_kinematics solve pinv g link off sz ab = inverse_kinematics solve pinv g link off sz (cold ab mem).
Proof.
  intros R B OT P. destruct (reached_wfc solve pinv h ab R B) as [T W].
  unfold inverse_kinematics. rewrite (copy_ok ab T), (copy_ok (cold ab mem) (cold_tree ab mem T)). cbn [bind].
  assert (PC : proper (copied ab)) by (destruct P; constructor; auto).
  assert (G : good solve pinv proper (copied ab)).
  { apply good_copied; auto; [apply (reached_wop solve pinv (Some k0) h ab R B (oone_some k0 h OT))|apply (reached_wop solve pinv None h ab R B (oone_none h))]. }
  assert (TW : twin (copied (cold ab mem)) (copied ab)).
  { split; [|split; [exact G|exists (all_clear mem); reflexivity]]. change (copied (cold ab mem)) with (cold (copied ab) mem).
    apply good_cold; [apply proper_cache|apply (gd_tree _ _ _ _ G)|exact PC]. }
  change (ab_q (copied (cold ab mem))) with (ab_q (copied ab)).
  pose proof (loop_pair g link off (ab_q (copied ab)) ik_iterations sz _ _ TW) as X.
  destruct (ik_loop solve pinv ik_iterations g link off (ab_q (copied ab)) sz (copied (cold ab mem))) as [[[s m] a]| |], (ik_loop solve pinv ik_iterations g link off (ab_q (copied ab)) sz (copied ab)) as [[[s' m'] b]| |]; cbn [pair_l] in X; try tauto; cbn [bind].
  destruct X as (-> & -> & X). destruct (twin_fields _ _ _ _ _ X) as (-> & _). reflexivity.
Qed.
End Fresh.

From Coq Require Import Reals Lra.
From Verif Require Import Instances.
Section Real.
Local Open Scope R_scope.
Lemma c51_small (e : list (@K RScal)) : @small RScal e <-> sqrt (sqsum e) < 1 / 1000.
Proof.
  pose (t := (1 / 1000)%R). assert (X : @small RScal e <-> @within RScal t e).
  { unfold small, within. replace (@klt RScal t (@k0 RScal)) with false; [|symmetry; change (@klt RScal) with Rltb; change (@k0 RScal) with 0; unfold Rltb; destruct (Rlt_dec _ _); [unfold t in *; lra|reflexivity]].
    replace (@klit RScal 1 1000) with t by (unfold t; cbn; lra). split; auto. intros [H|H]; [discriminate|exact H]. }
  rewrite X, c44_within. unfold t. split; [intros [H|H]; [lra|exact H]|auto].
Qed.
End Real.

(** The joint vector is returned though no configuration is on the goal. *)
Lemma c51_unreachable {S : Scal} {AC : AddComm S} {ES : EqSound S} solve pinv h ab g link off sz l :
  reached solve pinv h ab -> base_fixed false h = true -> one_threshold k0 h -> idx (ab_dof ab) link = Some l ->
  (forall x dx, List.length (g_acc_pos g x dx) = 3%nat) -> (forall R w, List.length (g_acc_ori g R w) = 3%nat) ->
  (forall a b c, List.length (g_acc_joint g a b c) = ab_dof ab) -> sz = None \/ sz = Some (ab_dof ab) ->
  (forall q ab', at_q ab q ab' -> ~ on_goal solve pinv g link (-1) off ab') ->
  exists sz' q, inverse_kinematics solve pinv g link off sz ab = Ok (sz', false, q) /\ List.length q = ab_dof ab.
Proof.
  intros R B OT IX H1 H2 H3 HS NG. destruct (c51_total solve pinv h ab R B OT g link off sz l IX H1 H2 H3 HS) as [[[sz' met] q] E].
  assert (SZ : sz <> Some 0%nat) by (apply idx_spec in IX; destruct HS as [-> | ->]; [discriminate|intros X; inversion X; lia]).
  destruct (c51_result solve pinv h ab R B OT g link off sz sz' met q SZ E) as (LQ & ab' & A1 & A2 & A3).
  destruct met; [elim (NG q ab' A1 (A3 eq_refl))|]. eauto.
Qed.
