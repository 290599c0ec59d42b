(** Two copies of a robot that differ only in their caches answer every program of
    queries and updates alike. *)
From Coq Require Import List Arith ZArith Bool Lia.
From Verif Require Import Scalar Base Spatial Joint Body Kin InvDyn FwdDyn Opspace OpspaceAba Deriv Sim Ops Specs SpecCache SpecKin SpecDyn SpecOps
  TreeProofs CacheProofs CacheOps DynProofs DynApi OpsCache OpsApi.
Import ListNotations.

Section Twin.
Context {S : Scal} {AC : AddComm S} {ES : EqSound S}.
Variable solve : list (list K) -> list K -> list K.
Variable pinv : list (list K) -> K -> list (list K) * bool.

(** Some further property of the robots, untouched by queries and by set_q, set_dq. *)
Variable also : body -> Prop.
Hypothesis also_cache : forall a c, also a -> also (set_cache a (Some c)).
Hypothesis also_put : forall io q dq a a', also a -> put io q dq a = Ok a' -> also a'.

Record good (a : body) : Prop := { gd_tree : tree_ok a; gd_wfc : wfc a; gd_zero : wop solve pinv (Some k0) a; gd_any : wop solve pinv None a; gd_also : also a }.
Lemma good_reached h ab : reached solve pinv h ab -> base_fixed false h = true -> one_threshold k0 h -> also ab -> good ab.
Proof.
  intros R B OT AL. destruct (reached_wfc solve pinv h ab R B) as [T W]. constructor; auto.
  - apply (reached_wop solve pinv (Some k0) h ab R B (oone_some k0 h OT)).
  - apply (reached_wop solve pinv None h ab R B (oone_none h)).
Qed.
Lemma good_cold ab mem : tree_ok ab -> also ab -> good (cold ab mem).
Proof. intros T AL. constructor; [apply cold_tree; auto|apply cold_wfc|apply cold_wop|apply cold_wop|apply also_cache; auto]. Qed.

(** Queries whose answer does not depend on the cache. *)
Definition safe (q : query) : Prop :=
  (forall x, In x (thresholds q) -> x = k0) /\ (pose_query q = true \/ jacobian_query q = true \/ dynamics_query q = true \/ task_query q = true).
Lemma good_fresh a q mem : good a -> safe q -> outcome (ask solve pinv q a) = outcome (ask solve pinv q (cold a mem)).
Proof.
  intros [T W O O0 AL] [Th Q]. destruct Q as [Q|[Q|[Q|Q]]].
  - apply pose_fresh; auto.
  - destruct (jacobian_fresh solve pinv a q mem T W Q) as (o' & H & X). rewrite X.
    assert (o' = offset_of q) as -> by (destruct H; auto; apply v3eqb_sound; auto).
    assert (with_offset q (offset_of q) = q) as -> by (destruct q; try discriminate Q; reflexivity). reflexivity.
  - apply dynamics_fresh; auto.
  - pose proof (cold_tree a mem T) as T'. pose proof (cold_wfc a mem) as W'. pose proof (cold_wop solve pinv a mem (Some k0)) as O'.
    pose proof (cold_wop solve pinv a mem None) as O0'.
    destruct q; try discriminate; cbn [thresholds] in Th; cbn [ask]; rewrite !outcome_wrap.
    + rewrite (out_oLinv solve pinv a T W O0), (out_oLinv solve pinv _ T' W' O0'). reflexivity.
    + rewrite (out_oLam solve pinv a T W O0), (out_oLam solve pinv _ T' W' O0'). reflexivity.
    + assert (eps = k0) as -> by (apply Th; left; auto). rewrite (out_oJb solve pinv a T W k0 O), (out_oJb solve pinv _ T' W' k0 O'). reflexivity.
    + rewrite (out_oSing solve pinv a T W O0), (out_oSing solve pinv _ T' W' O0'). reflexivity.
    + assert (eps = k0) as -> by (apply Th; left; auto). rewrite (out_oCC solve pinv a T W k0 O), (out_oCC solve pinv _ T' W' k0 O'). reflexivity.
    + assert (eps = k0) as -> by (apply Th; left; auto). rewrite (out_oGrav solve pinv a T W k0 O), (out_oGrav solve pinv _ T' W' k0 O'). reflexivity.
    + assert (eps = k0) as -> by (apply Th; left; auto). rewrite (out_oExt solve pinv a T W k0 O), (out_oExt solve pinv _ T' W' k0 O'). reflexivity.
    + assert (eps = k0) as -> by (apply Th; left; auto). rewrite (out_oFric solve pinv a T W k0 O), (out_oFric solve pinv _ T' W' k0 O'). reflexivity.
    + assert (He : p_svd o = k0) by (apply Th; left; auto).
      rewrite (out_oID solve pinv a T W k0 O), (out_oID solve pinv _ T' W' k0 O') by auto. reflexivity.
Qed.
Lemma good_ask a q a' x : good a -> (forall x, In x (thresholds q) -> x = k0) -> ask solve pinv q a = Ok (a', x) -> good a' /\ exists c, a' = set_cache a (Some c).
Proof.
  intros [T W O O0 AL] Th E. destruct (ask_frame solve pinv _ _ _ _ E) as [c Ec]. split; [|eauto]. constructor.
  - subst a'. apply tree_set_cache; auto.
  - exact (ask_inv solve pinv q a a' x T W E).
  - apply (ask_op solve pinv (Some k0) q a a' x T W O); auto. intros y Hy e2 He2. inversion He2; subst. auto.
  - apply (ask_op solve pinv None q a a' x T W O0); auto. intros y Hy e2 He2. discriminate.
  - subst a'. apply also_cache; auto.
Qed.
Lemma good_put io q dq a a' : good a -> put io q dq a = Ok a' -> good a'.
Proof.
  intros [T W O O0 AL] E. constructor; [eapply tree_put; eauto|eapply inv_put; eauto|eapply wop_put; eauto|eapply wop_put; eauto|exact (also_put io q dq a a' AL E)].
Qed.

(** Twins and pairs of outcomes. *)
Definition twin (a b : body) : Prop := good a /\ good b /\ exists c, a = set_cache b (Some c).
Definition pair_of {A} (x y : res (body * A)) : Prop :=
  match x, y with
  | Ok (a, v), Ok (b, w) => v = w /\ twin a b
  | Throw, Throw | UB, UB => True
  | _, _ => False
  end.
Definition pair_b (x y : res body) : Prop :=
  match x, y with Ok a, Ok b => twin a b | Throw, Throw | UB, UB => True | _, _ => False end.
Lemma twin_fields a b : twin a b -> ab_q a = ab_q b /\ ab_dq a = ab_dq b /\ ab_dof a = ab_dof b /\ ab_rbs a = ab_rbs b.
Proof. intros (_ & _ & c & ->). auto. Qed.
Lemma pair_bind {A B} (x y : res (body * A)) (f g : body -> A -> res (body * B)) :
  pair_of x y -> (forall a b v, twin a b -> pair_of (f a v) (g b v)) ->
  pair_of (bind x (fun '(a, v) => f a v)) (bind y (fun '(a, v) => g a v)).
Proof. destruct x as [[a v]| |], y as [[b w]| |]; cbn; try tauto. intros [-> T] H. auto. Qed.
Lemma pair_bind_b {A} (x y : res (body * A)) (f g : body -> A -> res body) :
  pair_of x y -> (forall a b v, twin a b -> pair_b (f a v) (g b v)) ->
  pair_b (bind x (fun '(a, v) => f a v)) (bind y (fun '(a, v) => g a v)).
Proof. destruct x as [[a v]| |], y as [[b w]| |]; cbn; try tauto. intros [-> T] H. auto. Qed.
Lemma pair_b_bind (x y : res body) (f g : body -> res body) :
  pair_b x y -> (forall a b, twin a b -> pair_b (f a) (g b)) -> pair_b (bind x f) (bind y g).
Proof. destruct x as [a| |], y as [b| |]; cbn; try tauto. intros T H. auto. Qed.

(** An answer the two robots share. *)
Lemma pair_same a b q : twin a b -> (forall x, In x (thresholds q) -> x = k0) ->
  outcome (ask solve pinv q a) = outcome (ask solve pinv q b) -> pair_of (ask solve pinv q a) (ask solve pinv q b).
Proof.
  intros (Ga & Gb & c & E) Th H. destruct (ask solve pinv q a) as [[a' x]| |] eqn:Ea, (ask solve pinv q b) as [[b' y]| |] eqn:Eb; cbn in *; try discriminate; auto.
  inversion H. split; [auto|]. destruct (good_ask a q a' x Ga Th Ea) as (Ga' & ca & Fa). destruct (good_ask b q b' y Gb Th Eb) as (Gb' & cb & Fb).
  split; [auto|]. split; [auto|]. exists ca. subst. reflexivity.
Qed.
Lemma pair_ask a b q : twin a b -> safe q -> pair_of (ask solve pinv q a) (ask solve pinv q b).
Proof.
  intros TW SF. apply pair_same; auto; [apply SF|]. pose proof TW as (Ga & Gb & c & E).
  rewrite (good_fresh a q c Ga SF), (good_fresh b q c Gb SF). subst a. reflexivity.
Qed.
Lemma pair_wrap {A} (f : A -> answer) (x y : res (body * A)) : (forall u v, f u = f v -> u = v) ->
  pair_of (wrap f x) (wrap f y) -> pair_of x y.
Proof.
  intros I. destruct x as [[a v]| |], y as [[b w]| |]; cbn; try tauto. intros [H T]. split; auto.
Qed.
Lemma like_set_q q b c : (exists c0, ab_cache b = Some c0) -> match called (set_q q (set_cache b (Some c))), called (set_q q b) with
  | Ok a', Ok b' => exists c', a' = set_cache b' (Some c') | Throw, Throw | UB, UB => True | _, _ => False end.
Proof.
  intros (c0 & E). unfold set_q, called. cbn [ab_q ab_dof set_cache ab_cache]. destruct (negb _); [exact I|]. destruct (negb _); [exact I|].
  destruct (veqb _ _); [eauto|]. eexists. reflexivity.
Qed.
Lemma like_set_dq q b c : (exists c0, ab_cache b = Some c0) -> match called (set_dq q (set_cache b (Some c))), called (set_dq q b) with
  | Ok a', Ok b' => exists c', a' = set_cache b' (Some c') | Throw, Throw | UB, UB => True | _, _ => False end.
Proof.
  intros (c0 & E). unfold set_dq, called. cbn [ab_dq ab_dof set_cache ab_cache]. destruct (negb _); [exact I|]. destruct (negb _); [exact I|].
  destruct (veqb _ _); [eauto|]. eexists. reflexivity.
Qed.
Lemma pair_put io q dq a b : i_limits io = false -> twin a b -> pair_b (put io q dq a) (put io q dq b).
Proof.
  intros Hl (Ga & Gb & c & E).
  assert (X : match put io q dq a, put io q dq b with
    | Ok a', Ok b' => exists c', a' = set_cache b' (Some c') | Throw, Throw | UB, UB => True | _, _ => False end).
  { unfold put. rewrite Hl. cbn [bind]. subst a. destruct (tk_cache _ (gd_tree _ Gb)) as [c0 E0]. pose proof (like_set_q q b c (ex_intro _ c0 E0)) as X.
    destruct (called (set_q q (set_cache b (Some c)))) as [a1| |], (called (set_q q b)) as [b1| |] eqn:Eb; cbn [bind]; try tauto.
    destruct X as [c' ->]. apply like_set_dq. apply called_inv in Eb. destruct Eb as [[] Eb]. apply (tk_cache _ (tree_set_q _ _ _ (gd_tree _ Gb) Eb)). }
  unfold pair_b. destruct (put io q dq a) as [a'| |] eqn:Ea, (put io q dq b) as [b'| |] eqn:Eb; try tauto.
  split; [exact (good_put io q dq a a' Ga Ea)|]. split; [exact (good_put io q dq b b' Gb Eb)|exact X].
Qed.
(** Integrate, when the forward dynamics agree. *)
Lemma pair_integrate fd io dt a b : i_limits io = false -> (forall a b, twin a b -> pair_of (fd a) (fd b)) -> twin a b ->
  pair_b (integrate fd io dt a) (integrate fd io dt b).
Proof.
  intros Hl FD TW. unfold integrate. destruct (twin_fields _ _ TW) as (-> & -> & -> & _).
  apply pair_bind_b; [apply FD; auto|]. intros a1 b1 v T1. destruct (i_method io).
  - apply pair_put; auto.
  - apply pair_b_bind; [apply pair_put; auto|]. intros a2 b2 T2. destruct (twin_fields _ _ T2) as (_ & -> & _).
    apply pair_bind_b; [apply FD; auto|]. intros a3 b3 v3 T3. apply pair_put; auto.
  - apply pair_b_bind; [apply pair_put; auto|]. intros a2 b2 T2. destruct (twin_fields _ _ T2) as (_ & -> & _).
    apply pair_bind_b; [apply FD; auto|]. intros a3 b3 v3 T3. apply pair_b_bind; [apply pair_put; auto|]. intros a4 b4 T4. destruct (twin_fields _ _ T4) as (_ & -> & _).
    apply pair_bind_b; [apply FD; auto|]. intros a5 b5 v5 T5. apply pair_b_bind; [apply pair_put; auto|]. intros a6 b6 T6. destruct (twin_fields _ _ T6) as (_ & -> & _).
    apply pair_bind_b; [apply FD; auto|]. intros a7 b7 v7 T7. apply pair_put; auto.
Qed.
End Twin.

Section Laws.
Context {S : Scal} {L : ScalLaws S} {PL : PosLaws S} {ES : EqSound S}.
Variable solve : list (list K) -> list K -> list K.
Variable pinv : list (list K) -> K -> list (list K) * bool.
#[local] Instance comm_of_laws : AddComm S := laws_comm.
Lemma proper_cache a c : proper a -> proper (set_cache a (Some c)).
Proof. intros []; constructor; auto. Qed.
Lemma proper_put io q dq a a' : proper a -> put io q dq a = Ok a' -> proper a'.
Proof.
  intros P E. apply put_inv in E. destruct E as (q' & a1 & dq' & E1 & E2).
  assert (X : ab_dof a' = ab_dof a /\ ab_rbs a' = ab_rbs a /\ ab_loads a' = ab_loads a /\ ab_Tbase a' = ab_Tbase a).
  { revert E2. unfold set_dq. destruct (negb _); [discriminate|]. destruct (negb _); [discriminate|].
    assert (Y : ab_dof a1 = ab_dof a /\ ab_rbs a1 = ab_rbs a /\ ab_loads a1 = ab_loads a /\ ab_Tbase a1 = ab_Tbase a)
      by (revert E1; unfold set_q; destruct (negb _); [discriminate|]; destruct (negb _); [discriminate|]; destruct (veqb _ _); intros H; inversion H; auto).
    destruct (veqb _ _); intros H; inversion H; subst; cbn; auto. }
  destruct X as (X1 & X2 & X3 & X4). destruct P as [[P1 P2] P3 P4].
  assert (BO : forall k, bodies_on a' k = bodies_on a k) by (intros; unfold bodies_on; rewrite X2, X3; reflexivity).
  constructor; [split; rewrite ?X4, ?X2; auto| |]; intros k; rewrite X1, BO; auto.
Qed.
(** Inverse and forward dynamics of proper robots. *)
Notation pgood := (good solve pinv proper).
Lemma eom_pair a b q : twin solve pinv proper a b -> eom_query q = true -> pair_of solve pinv proper (ask solve pinv q a) (ask solve pinv q b).
Proof.
  intros TW Q. pose proof TW as (Ga & Gb & c & E). apply pair_same; [apply proper_cache|auto|destruct q; try discriminate; intros ? []|].
  assert (PC : forall a, pgood a -> outcome (ask solve pinv q a) = outcome (ask solve pinv q (cold a c))).
  { intros x [T W _ _ Px]. pose proof (cold_tree x c T) as T'. pose proof (cold_wfc x c) as W'. pose proof (proper_cold x c Px) as P'.
    destruct q; try discriminate Q; cbn [ask]; rewrite !outcome_wrap.
    - rewrite (out_ID x T W), (out_ID _ T' W') by auto. reflexivity.
    - rewrite (out_FD solve x T W), (out_FD solve _ T' W') by auto. reflexivity. }
  rewrite (PC a Ga), (PC b Gb). subst a. reflexivity.
Qed.
Lemma fd_pair tau fe o a b : twin solve pinv proper a b ->
  pair_of solve pinv proper (sim_fd solve false tau fe o a) (sim_fd solve false tau fe o b).
Proof. intros TW. pose proof (eom_pair a b (QFD tau fe o) TW eq_refl) as X. cbn [ask] in X. apply pair_wrap in X; [exact X|]. intros u v H. congruence. Qed.
End Laws.
