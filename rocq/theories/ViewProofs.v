(** Proofs about windows on the state of a robot (C67). *)
From Coq Require Import List Arith ZArith Bool Lia.
From Verif Require Import Scalar Base Spatial Joint Body Kin InvDyn FwdDyn Opspace OpspaceAba Deriv Sim Ops Control Specs SpecCache SpecKin SpecDyn SpecSim PyView SpecView TreeProofs CacheProofs CacheOps DynApi OpsCache.
Import ListNotations.

Section View.
Context {S : Scal}.
Local Open Scope k_scope.
Variable solve : list (list K) -> list K -> list K.
Variable pinv : list (list K) -> K -> list (list K) * bool.
Local Notation exec := (exec solve pinv).
Local Notation runs := (runs solve pinv).

(** The controller is a sequence of questions and integrations. *)
Section Ind.
Variable P : body -> Prop.
Hypothesis Pask : forall q a a' x, P a -> ask solve pinv q a = Ok (a', x) -> P a'.
Hypothesis Pint : forall tau io dt a a', P a -> integrate (sim_fd solve false tau no_force (IdOpts true true false (klit 1 100))) io dt a = Ok a' -> P a'.
Lemma P_wrap {A} (f : A -> answer) q (r : res (body * A)) a a' y : P a -> ask solve pinv q a = wrap f r -> r = Ok (a', y) -> P a'.
Proof. intros H E X. subst r. apply (Pask q a a' (f y) H). rewrite E. reflexivity. Qed.
Lemma P_jac l o a a' y : P a -> q_Jacobian l o a = Ok (a', y) -> P a'.
Proof. intros H E. exact (P_wrap AMots (QJac l o) _ _ _ _ H eq_refl E). Qed.
Lemma P_pos l o a a' y : P a -> q_Position l o a = Ok (a', y) -> P a'.
Proof. intros H E. exact (P_wrap AV3 (QPos l o) _ _ _ _ H eq_refl E). Qed.
Lemma P_ori l a a' y : P a -> q_Orientation l a = Ok (a', y) -> P a'.
Proof. intros H E. exact (P_wrap AM3 (QOri l) _ _ _ _ H eq_refl E). Qed.
Lemma P_sing J e a a' y : P a -> q_ops_IsSingular solve pinv J e a = Ok (a', y) -> P a'.
Proof. intros H E. exact (P_wrap ABool (QoSing J e) _ _ _ _ H eq_refl E). Qed.
Lemma P_grav a a' y : P a -> q_Gravity a = Ok (a', y) -> P a'.
Proof. intros H E. exact (P_wrap AVec QGrav _ _ _ _ H eq_refl E). Qed.
Lemma P_oid J d N g a a' y : P a -> q_ops_InverseDynamics solve pinv J d N no_force g ops_default a = Ok (a', y) -> P a'.
Proof. intros H E. exact (P_wrap (fun '(N, t) => ANull N t) (QoID J d N no_force g ops_default) _ _ _ _ H eq_refl E). Qed.
Ltac nxt H := match type of H with bind ?x _ = _ => let E := fresh "E" in destruct x as [[? ?]| |] eqn:E; cbn [bind] in H; try discriminate H end.
Lemma P_main J ddx dw a a' y : P a -> main_task solve pinv J ddx dw a = Ok (a', y) -> P a'.
Proof.
  intros H X. unfold main_task in X. nxt X. apply P_sing in E; auto. destruct b0.
  - nxt X. destruct p as [N t]. apply P_oid in E0; auto. nxt X. apply P_sing in E1; auto. inversion X; subst; auto.
  - nxt X. destruct p as [N t]. apply P_oid in E0; auto. inversion X; subst; auto.
Qed.
Lemma control_ind k a a' y : P a -> compute_opspace_control solve pinv k a = Ok (a', y) -> P a'.
Proof.
  intros H X. unfold compute_opspace_control in X. nxt X. apply P_jac in E; auto. nxt X. apply P_pos in E0; auto.
  destruct (c_pos k _ _) as [ddx xe]. nxt X. apply P_ori in E1; auto. destruct (c_ori k _ _) as [dw oe]. nxt X. destruct p as [[[N tau] s6] s3]. apply P_main in E2; auto.
  nxt X. destruct p as [N' t]. apply P_oid in E3; auto. nxt X.
  assert (PG : P b4). { destruct (c_gravity k); [nxt E4; apply P_grav in E5; auto; inversion E4; subst; auto|inversion E4; subst; auto]. }
  destruct (klt 0 (c_dt k)); [|inversion X; subst; auto].
  match type of X with bind ?x _ = _ => destruct x as [b5| |] eqn:E5; cbn [bind] in X; try discriminate X end.
  inversion X; subst. eapply Pint; eauto.
Qed.
End Ind.

(** The size of a robot does not change unless links are added. *)
Definition sized (n : nat) (a : body) : Prop := tree_ok a /\ ab_dof a = n.
Lemma sized_step n o a a' : sized n a -> (forall rb p, o <> OAdd rb p) -> step solve pinv o a = Some a' -> sized n a'.
Proof.
  intros [T D] H E. pose proof (tree_step _ _ _ _ _ T E) as T'. split; auto. rewrite <- (tk_rbs _ T'), (step_rbs _ _ _ _ _ T E), <- D, <- (tk_rbs _ T).
  destruct o; auto. exfalso. eapply H. reflexivity.
Qed.
Lemma sized_ask n q a a' x : sized n a -> ask solve pinv q a = Ok (a', x) -> sized n a'.
Proof. intros Z E. apply (sized_step n (OAsk q) a); auto; [discriminate|]. cbn [step]. rewrite E. reflexivity. Qed.
Lemma sized_int n aba tau fe o io dt a a' : sized n a -> integrate (sim_fd solve aba tau fe o) io dt a = Ok a' -> sized n a'.
Proof. intros Z E. apply (sized_step n (OIntegrate aba tau fe o io dt) a); auto; [discriminate|]. cbn [step]. rewrite E. reflexivity. Qed.
Lemma sized_control n k a a' y : sized n a -> compute_opspace_control solve pinv k a = Ok (a', y) -> sized n a'.
Proof. apply control_ind; intros; [eapply sized_ask|eapply sized_int]; eauto. Qed.

Lemma now_gen n s a : sized n (v_ab s) -> sized n a -> robot_now s a = PyState a (v_gen s) (v_env s).
Proof. intros [_ D] [_ D']. unfold robot_now. rewrite D, D', Nat.eqb_refl. reflexivity. Qed.
(** In any program that adds no links, the size and the storage stay, and names keep their values. *)
Lemma set_q_settled q a : match set_q q a with Ret b _ => step solve pinv (OSetQ q) a = Some b | Exn b => step solve pinv (OSetQ q) a = Some b | Bad => True end.
Proof. cbn [step]. destruct (set_q q a); cbn; auto. Qed.
Lemma set_dq_settled q a : match set_dq q a with Ret b _ => step solve pinv (OSetDq q) a = Some b | Exn b => step solve pinv (OSetDq q) a = Some b | Bad => True end.
Proof. cbn [step]. destruct (set_dq q a); cbn; auto. Qed.
Lemma exec_sized n c s s' o : sized n (v_ab s) -> same_robot c = true -> exec c s = Some (s', o) ->
  sized n (v_ab s') /\ v_gen s' = v_gen s /\ forall x, leaves x c = true -> v_env s' x = v_env s x.
Proof.
  intros Z Hc E.
  assert (ST : forall o a, (forall rb p, o <> OAdd rb p) -> step solve pinv o (v_ab s) = Some a ->
    sized n a /\ robot_now s a = PyState a (v_gen s) (v_env s)).
  { intros o0 a No Ea. pose proof (sized_step n o0 _ _ Z No Ea) as Za. split; auto. eapply now_gen; eauto. }
  destruct c as [x e|e|e|e|o0|q|j k]; cbn [PyView.exec same_robot leaves] in *.
  - destruct (eval s e); try discriminate E; inversion E; subst; cbn; (split; [exact Z|]; split; [reflexivity|]); [|reflexivity].
    intros y Hy. apply negb_true_iff in Hy. rewrite Nat.eqb_sym in Hy. rewrite Hy. reflexivity.
  - unfold assign_state in E. destruct (numbers s e) as [l| |]; try discriminate E; [|inversion E; subst; auto].
    pose proof (set_q_settled l (v_ab s)) as X. destruct (set_q l (v_ab s)) as [b u|b|]; try discriminate E; destruct (ST (OSetQ l) b ltac:(discriminate) X) as [Zb Rb]; rewrite Rb in E; inversion E; subst; cbn; auto.
  - unfold assign_state in E. destruct (numbers s e) as [l| |]; try discriminate E; [|inversion E; subst; auto].
    pose proof (set_dq_settled l (v_ab s)) as X. destruct (set_dq l (v_ab s)) as [b u|b|]; try discriminate E; destruct (ST (OSetDq l) b ltac:(discriminate) X) as [Zb Rb]; rewrite Rb in E; inversion E; subst; cbn; auto.
  - destruct (numbers s e); try discriminate E; inversion E; subst; auto.
  - assert (G : match step solve pinv o0 (v_ab s) with Some ab => Some (robot_now s ab, SNone) | None => None end = Some (s', o)) by (destruct o0; auto; discriminate Hc).
    destruct (step solve pinv o0 (v_ab s)) as [b|] eqn:X; [|discriminate G]. destruct (ST o0 b) as [Zb Rb]; [intros rb p ->; discriminate Hc|exact X|]. rewrite Rb in G. inversion G; subst; cbn; auto.
  - destruct (ask solve pinv q (v_ab s)) as [[b a]| |] eqn:X; try discriminate E.
    + pose proof (sized_ask n q _ _ _ Z X) as Zb. rewrite (now_gen n s b Z Zb) in E. inversion E; subst; cbn; auto.
    + destruct (step solve pinv (OAsk q) (v_ab s)) as [b|] eqn:Y; [|discriminate E]. destruct (ST (OAsk q) b ltac:(discriminate) Y) as [Zb Rb]. rewrite Rb in E. inversion E; subst; cbn; auto.
  - destruct (numbers s _) as [l| |]; try discriminate E; [|inversion E; subst; auto].
    destruct (compute_opspace_control solve pinv (k l) (v_ab s)) as [[b [t st]]| |] eqn:X; try discriminate E.
    pose proof (sized_control n _ _ _ _ Z X) as Zb. rewrite (now_gen n s b Z Zb) in E. inversion E; subst; cbn; auto.
Qed.
Lemma runs_app p : forall q s, runs (p ++ q) s = match runs p s with Some (s', l) => match runs q s' with Some (s'', l') => Some (s'', l ++ l') | None => None end | None => None end.
Proof.
  induction p as [|c p IH]; intros q s; cbn [app PyView.runs]. { destruct (runs q s) as [[? ?]|]; reflexivity. }
  destruct (exec c s) as [[s' o]|]; [|reflexivity]. rewrite IH. destruct (runs p s') as [[s'' l]|]; [|reflexivity]. destruct (runs q s'') as [[? ?]|]; reflexivity.
Qed.
Lemma runs_sized n p : forall s s' l, sized n (v_ab s) -> forallb same_robot p = true -> runs p s = Some (s', l) ->
  sized n (v_ab s') /\ v_gen s' = v_gen s /\ forall x, forallb (leaves x) p = true -> v_env s' x = v_env s x.
Proof.
  induction p as [|c p IH]; intros s s' l Z H E; cbn [PyView.runs forallb] in *. { inversion E; subst; auto. }
  apply andb_true_iff in H. destruct H as [Hc Hp]. destruct (exec c s) as [[s1 o]|] eqn:E1; [|discriminate E].
  destruct (exec_sized n c s s1 o Z Hc E1) as (Z1 & G1 & V1). destruct (runs p s1) as [[s2 l2]|] eqn:E2; [|discriminate E]. inversion E; subst.
  destruct (IH s1 s' l2 Z1 Hp E2) as (Z2 & G2 & V2). split; auto. split; [congruence|]. intros x Hx. apply andb_true_iff in Hx. destruct Hx. rewrite V2, V1; auto.
Qed.

(** A name bound to [ab.q] means [ab.q]. *)
Definition bound (n : nat) (vel : bool) (x : nat) (s : pystate) : Prop :=
  sized n (v_ab s) /\ v_env s x = Some (Window vel (v_gen s) n).
Lemma eval_field n vel s : sized n (v_ab s) -> eval s (field vel) = Ok (Window vel (v_gen s) n).
Proof. intros [T D]. destruct vel; cbn; rewrite ?(tk_q _ T), ?(tk_dq _ T), D; reflexivity. Qed.
Lemma eval_spell n vel x s e : bound n vel x s -> eval s (spell vel x e) = eval s e.
Proof.
  intros [Z B]. induction e as [y| | |e IH|l]; cbn [spell eval]; auto.
  - destruct (Nat.eqb y x) eqn:E; [|reflexivity]. apply Nat.eqb_eq in E. subst y. rewrite B. apply eval_field; auto.
  - rewrite IH. reflexivity.
Qed.
Lemma numbers_spell n vel x s e : bound n vel x s -> numbers s (spell vel x e) = numbers s e.
Proof. intros B. unfold numbers. rewrite (eval_spell n); auto. Qed.
Lemma exec_spell n vel x s c : bound n vel x s -> exec (spell_out vel x c) s = exec c s.
Proof.
  intros B. destruct c as [y e|e|e|e|o|q|[e|] k]; cbn [spell_out PyView.exec]; unfold assign_state; rewrite ?(numbers_spell n vel x s e B), ?(eval_spell n vel x s e B); reflexivity.
Qed.
Lemma runs_spell n vel x p : forall s, bound n vel x s -> forallb (leaves x) p = true -> forallb same_robot p = true ->
  runs (map (spell_out vel x) p) s = runs p s.
Proof.
  induction p as [|c p IH]; intros s B Hl Hr; [reflexivity|]. cbn [map PyView.runs forallb] in *. apply andb_true_iff in Hl. apply andb_true_iff in Hr. destruct Hl as [Hl Hl'], Hr as [Hr Hr'].
  rewrite (exec_spell n vel x s c B). destruct (exec c s) as [[s1 o]|] eqn:E; [|reflexivity]. rewrite IH; auto.
  destruct B as [Z B]. destruct (exec_sized n c s s1 o Z Hr E) as (Z1 & G1 & V1). split; auto. rewrite V1, G1; auto.
Qed.
Lemma bind_bound n vel x s s' o : sized n (v_ab s) -> exec (PAssign x (field vel)) s = Some (s', o) -> bound n vel x s' /\ o = SNone.
Proof.
  intros Z E. cbn [PyView.exec] in E. rewrite (eval_field n) in E by auto. inversion E; subst. split; [|reflexivity]. split; [exact Z|]. cbn. rewrite Nat.eqb_refl. reflexivity.
Qed.
Lemma c67_follow h vel x p s : reached solve pinv h (v_ab s) -> forallb (leaves x) p = true -> forallb same_robot p = true ->
  runs (PAssign x (field vel) :: p) s = runs (PAssign x (field vel) :: map (spell_out vel x) p) s.
Proof.
  intros R Hl Hr. cbn [PyView.runs]. destruct (exec _ s) as [[s1 o]|] eqn:E; [|reflexivity].
  destruct (bind_bound (ab_dof (v_ab s)) vel x s s1 o) as [B _]; auto. { split; [exact (tree_reached _ _ _ _ R)|reflexivity]. }
  rewrite (runs_spell _ vel x p s1 B Hl Hr). reflexivity.
Qed.
Lemma look_bound n vel x s : bound n vel x s -> numbers s (EName x) = Ok (if vel then ab_dq (v_ab s) else ab_q (v_ab s)).
Proof.
  intros [[T D] B]. unfold numbers. cbn [eval]. rewrite B. cbn [bind look]. destruct (Nat.eqb n 0) eqn:N.
  - apply Nat.eqb_eq in N. pose proof (tk_q _ T) as Q. pose proof (tk_dq _ T) as V. rewrite D, N in Q, V. apply length_zero_iff_nil in Q. apply length_zero_iff_nil in V.
    destruct vel; congruence.
  - rewrite Nat.eqb_refl. reflexivity.
Qed.
Lemma veqb_id : (forall a : K, keq a a = true) -> forall l, veqb l l = true.
Proof. intros H l. induction l as [|a l IH]; cbn; auto. rewrite H. exact IH. Qed.
Lemma set_self n s vel x : (forall a : K, keq a a = true) -> bound n vel x s -> exec (set_field vel (EName x)) s = Some (s, SNone).
Proof.
  intros KR B. pose proof (look_bound n vel x s B) as X. destruct B as [[T D] B].
  assert (N : robot_now s (v_ab s) = s) by (unfold robot_now; rewrite Nat.eqb_refl; destruct s; reflexivity).
  destruct vel; cbn [set_field PyView.exec]; unfold assign_state; rewrite X.
  - unfold set_dq. rewrite (tk_dq _ T), !Nat.eqb_refl. cbn [negb]. rewrite (veqb_id KR), N. reflexivity.
  - unfold set_q. rewrite (tk_q _ T), !Nat.eqb_refl. cbn [negb]. rewrite (veqb_id KR), N. reflexivity.
Qed.
(** An array of the wrong length, or an expression that raises, is refused. *)
Lemma c67_refused vel e s : 
  (forall l, exec (PShow e) s = Some (s, SArray l) -> List.length l <> ab_dof (v_ab s) -> exec (set_field vel e) s = Some (s, SRaise)) /\
  (exec (PShow e) s = Some (s, SRaise) -> exec (set_field vel e) s = Some (s, SRaise)).
Proof.
  assert (N : robot_now s (v_ab s) = s) by (unfold robot_now; rewrite Nat.eqb_refl; destruct s; reflexivity).
  split.
  - intros l H D. assert (X : numbers s e = Ok l) by (cbn [PyView.exec] in H; destruct (numbers s e); inversion H; reflexivity).
    destruct vel; cbn [set_field PyView.exec]; unfold assign_state; rewrite X; [unfold set_dq|unfold set_q];
      (destruct (Nat.eqb_spec (List.length l) (ab_dof (v_ab s))) as [E|E]; [contradiction|]; cbn; rewrite N; reflexivity).
  - intros H. assert (X : numbers s e = Throw) by (cbn [PyView.exec] in H; destruct (numbers s e); inversion H; reflexivity).
    destruct vel; cbn [set_field PyView.exec]; unfold assign_state; rewrite X; reflexivity.
Qed.
Lemma run_bound h vel x p s s' l : reached solve pinv h (v_ab s) -> forallb (leaves x) p = true -> forallb same_robot p = true ->
  runs (PAssign x (field vel) :: p) s = Some (s', l) -> bound (ab_dof (v_ab s)) vel x s'.
Proof.
  intros R Hl Hr E. cbn [PyView.runs] in E. destruct (exec _ s) as [[s1 o]|] eqn:E1; [|discriminate E].
  destruct (bind_bound (ab_dof (v_ab s)) vel x s s1 o) as [[Z1 B1] _]; auto. { split; [exact (tree_reached _ _ _ _ R)|reflexivity]. }
  destruct (runs p s1) as [[s2 l2]|] eqn:E2; [|discriminate E]. inversion E; subst.
  destruct (runs_sized _ p s1 s' l2 Z1 Hr E2) as (Z2 & G2 & V2). split; auto. rewrite V2, G2; auto.
Qed.
Lemma c67_unrestored h vel x p s s' l : (forall a : K, keq a a = true) -> reached solve pinv h (v_ab s) -> forallb (leaves x) p = true -> forallb same_robot p = true ->
  runs (PAssign x (field vel) :: p) s = Some (s', l) ->
  runs (PAssign x (field vel) :: p ++ [set_field vel (EName x)]) s = Some (s', l ++ [SNone]).
Proof.
  intros KR R Hl Hr E. pose proof (run_bound _ _ _ _ _ _ _ R Hl Hr E) as B.
  change (PAssign x (field vel) :: p ++ [set_field vel (EName x)]) with ((PAssign x (field vel) :: p) ++ [set_field vel (EName x)]).
  rewrite runs_app, E. cbn [PyView.runs]. rewrite (set_self _ s' vel x KR B). reflexivity.
Qed.
Lemma c67_goal h x p k s : reached solve pinv h (v_ab s) -> forallb (leaves x) p = true -> forallb same_robot p = true ->
  runs (PAssign x EQ :: p ++ [PControl (Some (EName x)) k]) s = runs (PAssign x EQ :: p ++ [PControl None k]) s.
Proof.
  intros R Hl Hr. change (PAssign x EQ :: p ++ [PControl (Some (EName x)) k]) with ((PAssign x (field false) :: p) ++ [PControl (Some (EName x)) k]).
  change (PAssign x EQ :: p ++ [PControl None k]) with ((PAssign x (field false) :: p) ++ [PControl None k]).
  rewrite !runs_app. destruct (runs (PAssign x (field false) :: p) s) as [[s' l]|] eqn:E; [|reflexivity].
  pose proof (run_bound _ _ _ _ _ _ _ R Hl Hr E) as B. cbn [PyView.runs PyView.exec].
  rewrite <- (numbers_spell _ false x s' (EName x) B). cbn [spell]. rewrite Nat.eqb_refl. reflexivity.
Qed.

(** Adding a link. *)
Definition dead (vel : bool) (x n : nat) (s : pystate) : Prop := exists g, v_env s x = Some (Window vel g n) /\ g < v_gen s.
Lemma gen_mono s a : v_gen s <= v_gen (robot_now s a).
Proof. unfold robot_now. cbn. destruct (Nat.eqb _ _); lia. Qed.
Lemma freeze_dead s vel g n : 0 < n -> g < v_gen s -> freeze s (Window vel g n) = Window vel g n.
Proof. intros N G. unfold freeze. cbn [look]. destruct (Nat.eqb n 0) eqn:E; [apply Nat.eqb_eq in E; lia|]. destruct (Nat.eqb g (v_gen s)) eqn:E2; [apply Nat.eqb_eq in E2; lia|]. reflexivity. Qed.
Lemma exec_dead vel x n c s s' o : 0 < n -> dead vel x n s -> leaves x c = true -> exec c s = Some (s', o) -> dead vel x n s'.
Proof.
  intros N (g & B & G) Hl E.
  assert (RN : forall a, dead vel x n (robot_now s a)) by (intros a; exists g; split; [exact B|]; pose proof (gen_mono s a); lia).
  assert (D0 : dead vel x n s) by (exists g; auto).
  destruct c as [y e|e|e|e|o0|q|j k]; cbn [PyView.exec leaves] in *.
  - destruct (eval s e); try discriminate E; inversion E; subst; auto. exists g. cbn. apply negb_true_iff in Hl. rewrite Nat.eqb_sym in Hl. rewrite Hl. auto.
  - unfold assign_state in E. destruct (numbers s e) as [l| |]; try discriminate E; [|inversion E; subst; auto]. destruct (set_q l (v_ab s)); inversion E; subst; auto.
  - unfold assign_state in E. destruct (numbers s e) as [l| |]; try discriminate E; [|inversion E; subst; auto]. destruct (set_dq l (v_ab s)); inversion E; subst; auto.
  - destruct (numbers s e); inversion E; subst; auto.
  - assert (C : match step solve pinv o0 (v_ab s) with Some ab => Some (robot_now s ab, SNone) | None => None end = Some (s', o) -> dead vel x n s').
    { destruct (step solve pinv o0 (v_ab s)); intros H; inversion H; subst; auto. }
    destruct o0; auto. clear C. destruct (body_copy (v_ab s)) as [b| |]; inversion E; subst. exists g. cbn. rewrite B. cbn. rewrite freeze_dead; auto.
  - destruct (ask solve pinv q (v_ab s)) as [[b a]| |]; try discriminate E; [inversion E; subst; auto|].
    destruct (step solve pinv (OAsk q) (v_ab s)); inversion E; subst; auto.
  - destruct (numbers s _) as [l| |]; try discriminate E; [|inversion E; subst; auto].
    destruct (compute_opspace_control solve pinv (k l) (v_ab s)) as [[b [t st]]| |]; inversion E; subst; auto.
Qed.
Lemma runs_dead vel x n p : forall s s' l, 0 < n -> dead vel x n s -> forallb (leaves x) p = true -> runs p s = Some (s', l) -> dead vel x n s'.
Proof.
  induction p as [|c p IH]; intros s s' l N D Hl E; cbn [PyView.runs forallb] in *. { inversion E; subst; auto. }
  apply andb_true_iff in Hl. destruct Hl as [Hc Hp]. destruct (exec c s) as [[s1 o]|] eqn:E1; [|discriminate E]. destruct (runs p s1) as [[s2 l2]|] eqn:E2; [|discriminate E]. inversion E; subst.
  exact (IH s1 s' l2 N (exec_dead vel x n c s s1 o N D Hc E1) Hp E2).
Qed.
Lemma dead_numbers vel x n s : 0 < n -> dead vel x n s -> numbers s (EName x) = UB.
Proof. intros N (g & B & G). unfold numbers. cbn [eval]. rewrite B. cbn [bind look]. destruct (Nat.eqb n 0) eqn:E; [apply Nat.eqb_eq in E; lia|]. destruct (Nat.eqb g (v_gen s)) eqn:E2; [apply Nat.eqb_eq in E2; lia|]. reflexivity. Qed.
Lemma c67_dangling h vel x p rb par p' s s1 l c : reached solve pinv h (v_ab s) -> 0 < ab_dof (v_ab s) ->
  forallb (leaves x) p = true -> forallb same_robot p = true -> forallb (leaves x) p' = true ->
  runs (PAssign x (field vel) :: p) s = Some (s1, l) -> (exists b i, add_rigid_body rb par (v_ab s1) = Ret b i) ->
  In c [PShow (EName x); PSetQ (EName x); PSetDq (EName x); PShow (ECopy (EName x))] ->
  runs (PAssign x (field vel) :: p ++ PCall (OAdd rb par) :: p' ++ [c]) s = None.
Proof.
  intros R N Hl Hr Hl' E (b & i & A) Hc. pose proof (run_bound _ _ _ _ _ _ _ R Hl Hr E) as [Z B].
  change (PAssign x (field vel) :: p ++ PCall (OAdd rb par) :: p' ++ [c]) with ((PAssign x (field vel) :: p) ++ (PCall (OAdd rb par) :: p') ++ [c]).
  rewrite runs_app, E. rewrite runs_app.
  assert (G : match runs (PCall (OAdd rb par) :: p') s1 with Some (s2, _) => dead vel x (ab_dof (v_ab s)) s2 | None => True end).
  { cbn [PyView.runs PyView.exec step]. rewrite A. cbn [settled].
    assert (D : dead vel x (ab_dof (v_ab s)) (robot_now s1 b)).
    { exists (v_gen s1). split; [exact B|]. unfold robot_now. cbn. apply add_fields in A. destruct A as (_ & AD & _).
      replace (Nat.eqb (ab_dof b) (ab_dof (v_ab s1))) with false by (symmetry; apply Nat.eqb_neq; lia). lia. }
    destruct (runs p' (robot_now s1 b)) as [[s2 l2]|] eqn:E2; [|exact I]. eapply runs_dead; eauto. }
  destruct (runs (PCall (OAdd rb par) :: p') s1) as [[s2 l2]|]; [|reflexivity].
  pose proof (dead_numbers _ _ _ _ N G) as X. 
  assert (Y : exec c s2 = None).
  { destruct Hc as [<-|[<-|[<-|[<-|[]]]]]; cbn [PyView.exec]; unfold assign_state; try (rewrite X; reflexivity).
    unfold numbers in *. cbn [eval] in *. destruct (v_env s2 x) as [a|]; cbn [bind] in *; [|discriminate X]. rewrite X. reflexivity. }
  cbn [PyView.runs]. rewrite Y. reflexivity.
Qed.

(** Making [ab] a copy. *)
Lemma exec_own x l c s s' o : v_env s x = Some (Own l) -> leaves x c = true -> exec c s = Some (s', o) -> v_env s' x = Some (Own l).
Proof.
  intros B Hl E. destruct c as [y e|e|e|e|o0|q|j k]; cbn [PyView.exec leaves] in *.
  - destruct (eval s e); try discriminate E; inversion E; subst; auto. cbn. apply negb_true_iff in Hl. rewrite Nat.eqb_sym in Hl. rewrite Hl. auto.
  - unfold assign_state in E. destruct (numbers s e) as [l0| |]; try discriminate E; [|inversion E; subst; auto]. destruct (set_q l0 (v_ab s)); inversion E; subst; auto.
  - unfold assign_state in E. destruct (numbers s e) as [l0| |]; try discriminate E; [|inversion E; subst; auto]. destruct (set_dq l0 (v_ab s)); inversion E; subst; auto.
  - destruct (numbers s e); inversion E; subst; auto.
  - assert (C : match step solve pinv o0 (v_ab s) with Some ab => Some (robot_now s ab, SNone) | None => None end = Some (s', o) -> v_env s' x = Some (Own l)).
    { destruct (step solve pinv o0 (v_ab s)); intros H; inversion H; subst; auto. }
    destruct o0; auto. clear C. destruct (body_copy (v_ab s)) as [b| |]; inversion E; subst. cbn. rewrite B. reflexivity.
  - destruct (ask solve pinv q (v_ab s)) as [[b a]| |]; try discriminate E; [inversion E; subst; auto|].
    destruct (step solve pinv (OAsk q) (v_ab s)); inversion E; subst; auto.
  - destruct (numbers s _) as [l0| |]; try discriminate E; [|inversion E; subst; auto].
    destruct (compute_opspace_control solve pinv (k l0) (v_ab s)) as [[b [t st]]| |]; inversion E; subst; auto.
Qed.
Lemma runs_own x l p : forall s s' r, v_env s x = Some (Own l) -> forallb (leaves x) p = true -> runs p s = Some (s', r) -> v_env s' x = Some (Own l).
Proof.
  induction p as [|c p IH]; intros s s' r D Hl E; cbn [PyView.runs forallb] in *. { inversion E; subst; auto. }
  apply andb_true_iff in Hl. destruct Hl as [Hc Hp]. destruct (exec c s) as [[s1 o]|] eqn:E1; [|discriminate E]. destruct (runs p s1) as [[s2 l2]|] eqn:E2; [|discriminate E]. inversion E; subst.
  exact (IH s1 s' l2 (exec_own x l c s s1 o D Hc E1) Hp E2).
Qed.
Lemma c67_copied h vel x p p' s s1 s2 l l' : reached solve pinv h (v_ab s) ->
  forallb (leaves x) p = true -> forallb same_robot p = true -> forallb (leaves x) p' = true ->
  runs (PAssign x (field vel) :: p) s = Some (s1, l) -> runs (PCall OCopy :: p') s1 = Some (s2, l') ->
  runs (PAssign x (field vel) :: p ++ PCall OCopy :: p' ++ [PShow (EName x)]) s =
  Some (s2, l ++ l' ++ [SArray (if vel then ab_dq (v_ab s1) else ab_q (v_ab s1))]).
Proof.
  intros R Hl Hr Hl' E E'. pose proof (run_bound _ _ _ _ _ _ _ R Hl Hr E) as B.
  change (PAssign x (field vel) :: p ++ PCall OCopy :: p' ++ [PShow (EName x)]) with ((PAssign x (field vel) :: p) ++ (PCall OCopy :: p') ++ [PShow (EName x)]).
  rewrite runs_app, E, runs_app, E'. pose proof (look_bound _ _ _ _ B) as LB. unfold numbers in LB. cbn [eval] in LB.
  cbn [PyView.runs PyView.exec] in E'. destruct (body_copy (v_ab s1)) as [b| |]; try discriminate E'.
  match type of E' with match ?r with _ => _ end = _ => destruct r as [[s3 l3]|] eqn:E3; [|discriminate E'] end. inversion E'; subst s3 l'.
  apply (runs_own x (if vel then ab_dq (v_ab s1) else ab_q (v_ab s1))) in E3; auto.
  - cbn [PyView.runs PyView.exec]. unfold numbers. cbn [eval]. rewrite E3. reflexivity.
  - cbn [v_env]. destruct (v_env s1 x) as [a|]; [|discriminate LB]. cbn [bind option_map] in *. unfold freeze. rewrite LB. reflexivity.
Qed.

(** Saving a copy. *)
Definition like (ab a : body) : Prop := frame ab a /\ exists h, reached solve pinv h a /\ base_fixed false h = true.
Definition move_op (o : op) : bool := match o with OSetQ _ | OSetDq _ | OIntegrate _ _ _ _ _ _ | OAsk _ => true | _ => false end.
Lemma fixed_snoc o h : move_op o = true -> forall b, base_fixed b (h ++ [o]) = base_fixed b h.
Proof. intros H. induction h as [|y h IH]; intros b; [destruct o; cbn in *; auto; discriminate|]. destruct y; cbn; rewrite ?IH; auto. Qed.
Lemma reached_snoc h a o a' : reached solve pinv h a -> step solve pinv o a = Some a' -> reached solve pinv (h ++ [o]) a'.
Proof.
  intros (nm & m & R) E. exists nm, m. revert R. generalize (body_new nm m). induction h as [|y h IH]; intros b0 R; cbn in *.
  - inversion R; subst. rewrite E. reflexivity.
  - destruct (step solve pinv y b0); [|discriminate R]. auto.
Qed.
Lemma step_frame_move o a a' : move_op o = true -> step solve pinv o a = Some a' -> frame a a'.
Proof.
  intros H E. destruct o; try discriminate H; cbn [step] in E.
  - destruct (set_q q a) as [b []|b|] eqn:X; inversion E; subst; [apply set_q_frame in X; apply X|]. revert X. unfold set_q. destruct (negb _); [intros X; inversion X; apply frame_refl|]. destruct (negb _); [discriminate|]. destruct (veqb _ _); discriminate.
  - destruct (set_dq dq a) as [b []|b|] eqn:X; inversion E; subst; [apply set_dq_frame in X; apply X|]. revert X. unfold set_dq. destruct (negb _); [intros X; inversion X; apply frame_refl|]. destruct (negb _); [discriminate|]. destruct (veqb _ _); discriminate.
  - destruct (integrate _ io dt a) as [b| |] eqn:X; inversion E; subst. revert X. apply (integrate_ind (frame a)); [| |apply frame_refl].
    + intros u v y F Y. apply (sim_fd_frame solve pinv) in Y. destruct Y as [c ->]. eapply frame_trans; [exact F|apply frame_cache].
    + intros u v q0 dq0 F Y. apply put_frame in Y. eapply frame_trans; [exact F|apply Y].
  - destruct (ask solve pinv q a) as [[b y]| |] eqn:X; try discriminate E.
    + inversion E; subst. apply ask_frame in X. destruct X as [c ->]. apply frame_cache.
    + destruct q; try (inversion E; subst; apply frame_refl).
      match type of E with match ?r with _ => _ end = _ => destruct r as [[b y]| |] eqn:Y; try discriminate E end. inversion E; subst.
      match type of Y with q_ops_InverseDynamics _ _ ?J ?d ?N0 ?f ?e ?o _ = _ => assert (AK : ask solve pinv (QoID J d N0 f e o) a = Ok (a', (fun '(N, t) => ANull N t) y)) by (cbn; rewrite Y; reflexivity) end.
      apply ask_frame in AK. destruct AK as [c ->]. apply frame_cache.
Qed.
Lemma like_step ab o a a' : move_op o = true -> like ab a -> step solve pinv o a = Some a' -> like ab a'.
Proof.
  intros M (F & h & R & B) E. split; [eapply frame_trans; [exact F|eapply step_frame_move; eauto]|]. exists (h ++ [o]). split; [eapply reached_snoc; eauto|]. rewrite fixed_snoc; auto.
Qed.
Lemma like_exec ab c s s' o : like ab (v_ab s) -> moving c = true -> exec c s = Some (s', o) -> like ab (v_ab s').
Proof.
  intros Lk Hc E. assert (ST : forall o a, move_op o = true -> step solve pinv o (v_ab s) = Some a -> like ab a) by (intros; eapply like_step; eauto).
  destruct c as [x e|e|e|e|o0|q|j k]; cbn [PyView.exec moving] in *.
  - destruct (eval s e); inversion E; subst; auto.
  - unfold assign_state in E. destruct (numbers s e) as [l| |]; try discriminate E; [|inversion E; subst; auto].
    pose proof (set_q_settled l (v_ab s)) as X. destruct (set_q l (v_ab s)) as [b u|b|]; inversion E; subst; (eapply ST; [|exact X]; reflexivity).
  - unfold assign_state in E. destruct (numbers s e) as [l| |]; try discriminate E; [|inversion E; subst; auto].
    pose proof (set_dq_settled l (v_ab s)) as X. destruct (set_dq l (v_ab s)) as [b u|b|]; inversion E; subst; (eapply ST; [|exact X]; reflexivity).
  - destruct (numbers s e); inversion E; subst; auto.
  - assert (G : match step solve pinv o0 (v_ab s) with Some ab => Some (robot_now s ab, SNone) | None => None end = Some (s', o)) by (destruct o0; auto; discriminate Hc).
    destruct (step solve pinv o0 (v_ab s)) as [b|] eqn:X; inversion G; subst. apply (ST o0); [|exact X]. destruct o0; auto; discriminate Hc.
  - destruct (ask solve pinv q (v_ab s)) as [[b a]| |] eqn:X; try discriminate E.
    + inversion E; subst. apply (ST (OAsk q)); [reflexivity|]. cbn [step]. rewrite X. reflexivity.
    + destruct (step solve pinv (OAsk q) (v_ab s)) as [b|] eqn:Y; inversion E; subst. apply (ST (OAsk q)); auto.
  - destruct (numbers s _) as [l| |]; try discriminate E; [|inversion E; subst; auto].
    destruct (compute_opspace_control solve pinv (k l) (v_ab s)) as [[b [t st]]| |] eqn:X; inversion E; subst. cbn.
    revert X. apply (control_ind (like ab)); auto.
    + intros q a a' y La Ya. apply (like_step ab (OAsk q) a); auto. cbn [step]. rewrite Ya. reflexivity.
    + intros tau io dt a a' La Ya. apply (like_step ab (OIntegrate false tau no_force (IdOpts true true false (klit 1 100)) io dt) a); auto. cbn [step]. rewrite Ya. reflexivity.
Qed.
Lemma moving_same c : @moving S c = true -> same_robot c = true.
Proof. destruct c as [| | | |o| |]; auto. destruct o; auto. Qed.
Lemma like_runs ab p : forall s s' l, like ab (v_ab s) -> forallb moving p = true -> runs p s = Some (s', l) -> like ab (v_ab s').
Proof.
  induction p as [|c p IH]; intros s s' l Lk H E; cbn [PyView.runs forallb] in *. { inversion E; subst; auto. }
  apply andb_true_iff in H. destruct H as [Hc Hp]. destruct (exec c s) as [[s1 o]|] eqn:E1; [|discriminate E]. destruct (runs p s1) as [[s2 l2]|] eqn:E2; [|discriminate E]. inversion E; subst.
  exact (IH s1 s' l2 (like_exec ab c s s1 o Lk Hc E1) Hp E2).
Qed.
Lemma frame_cold a b mem : frame a b -> ab_q a = ab_q b -> ab_dq a = ab_dq b -> cold a mem = cold b mem.
Proof. intros (A1 & A2 & A3 & A4 & A5 & A6 & A7 & A8 & A9 & A10) Q V. unfold cold, set_cache. congruence. Qed.
Section Exact.
Context {E : EqSound S}.
Lemma set_q_exact q a a' u : set_q q a = Ret a' u -> ab_q a' = q /\ ab_dq a' = ab_dq a.
Proof.
  unfold set_q. destruct (negb _); [discriminate|]. destruct (negb (Nat.eqb _ (List.length q))) eqn:Lg; [discriminate|]. apply negb_false_iff, Nat.eqb_eq in Lg. destruct (veqb (ab_q a) q) eqn:V; intros H; inversion H; subst; cbn; auto.
  split; auto. apply veqb_sound in V; auto.
Qed.
Lemma set_dq_exact q a a' u : set_dq q a = Ret a' u -> ab_dq a' = q /\ ab_q a' = ab_q a.
Proof.
  unfold set_dq. destruct (negb _); [discriminate|]. destruct (negb (Nat.eqb _ (List.length q))) eqn:Lg; [discriminate|]. apply negb_false_iff, Nat.eqb_eq in Lg. destruct (veqb (ab_dq a) q) eqn:V; intros H; inversion H; subst; cbn; auto.
  split; auto. apply veqb_sound in V; auto.
Qed.
Lemma set_q_fits q a : tree_ok a -> List.length q = ab_dof a -> exists a', set_q q a = Ret a' tt.
Proof. intros T H. unfold set_q. rewrite H, (tk_q _ T), !Nat.eqb_refl. cbn. destruct (veqb _ _); eauto. Qed.
Lemma set_dq_fits q a : tree_ok a -> List.length q = ab_dof a -> exists a', set_dq q a = Ret a' tt.
Proof. intros T H. unfold set_dq. rewrite H, (tk_dq _ T), !Nat.eqb_refl. cbn. destruct (veqb _ _); eauto. Qed.
Lemma restore_like h x y p s s1 l : reached solve pinv h (v_ab s) -> base_fixed false h = true -> x <> y ->
  forallb (leaves x) p = true -> forallb (leaves y) p = true -> forallb moving p = true ->
  runs (PAssign x (ECopy EQ) :: PAssign y (ECopy EDq) :: p) s = Some (s1, l) ->
  exists s', runs (PAssign x (ECopy EQ) :: PAssign y (ECopy EDq) :: p ++ [PSetQ (EName x); PSetDq (EName y)]) s = Some (s', l ++ [SNone; SNone]) /\
  ab_q (v_ab s') = ab_q (v_ab s) /\ ab_dq (v_ab s') = ab_dq (v_ab s) /\ like (v_ab s) (v_ab s').
Proof.
  intros R B XY Hx Hy M H. pose proof (tree_reached _ _ _ _ R) as T. set (ab := v_ab s) in *.
  assert (Lk0 : like ab ab) by (split; [apply frame_refl|eauto]).
  assert (LQ : forall s, tree_ok (v_ab s) -> eval s (ECopy EQ) = Ok (Own (ab_q (v_ab s))) /\ eval s (ECopy EDq) = Ok (Own (ab_dq (v_ab s)))).
  { intros s0 T0. cbn [eval bind look]. pose proof (tk_q _ T0) as Q. pose proof (tk_dq _ T0) as V. split; [destruct (ab_q (v_ab s0))|destruct (ab_dq (v_ab s0))]; cbn; rewrite ?Nat.eqb_refl; reflexivity. }
  change (PAssign x (ECopy EQ) :: PAssign y (ECopy EDq) :: p ++ [PSetQ (EName x); PSetDq (EName y)]) with ((PAssign x (ECopy EQ) :: PAssign y (ECopy EDq) :: p) ++ [PSetQ (EName x); PSetDq (EName y)]).
  rewrite runs_app, H. cbn [PyView.runs PyView.exec] in H. rewrite (proj1 (LQ s T)) in H.
  match type of H with context [eval ?s1 (ECopy EDq)] => rewrite (proj2 (LQ s1 T)) in H; cbn [v_ab v_gen v_env] in H end.
  match type of H with context [runs _ ?z] => set (s2 := z) in * end.
  destruct (runs p s2) as [[s3 l3]|] eqn:E3; [|discriminate H]. inversion H; subst s1 l; clear H.
  assert (Z2 : sized (ab_dof ab) (v_ab s2)) by (split; auto).
  assert (SR : forallb same_robot p = true). { apply forallb_forall. intros c Hc. apply moving_same. apply (proj1 (forallb_forall _ p) M c Hc). }
  destruct (runs_sized _ p s2 s3 l3 Z2 SR E3) as (Z3 & G3 & V3). pose proof (like_runs ab p s2 s3 l3 Lk0 M E3) as Lk3.
  assert (Vx : v_env s3 x = Some (Own (ab_q ab))). { rewrite V3 by auto. cbn. apply Nat.eqb_neq in XY. rewrite XY, Nat.eqb_refl. reflexivity. }
  assert (Vy : v_env s3 y = Some (Own (ab_dq ab))). { rewrite V3 by auto. cbn. rewrite Nat.eqb_refl. reflexivity. }
  assert (SQ : exists s4, exec (PSetQ (EName x)) s3 = Some (s4, SNone) /\ ab_q (v_ab s4) = ab_q ab /\ v_env s4 = v_env s3 /\ sized (ab_dof ab) (v_ab s4) /\ like ab (v_ab s4)).
  { destruct (set_q_fits (ab_q ab) (v_ab s3)) as [a4 E4]; [apply Z3|rewrite (tk_q _ T); symmetry; apply Z3|].
    assert (X : exec (PSetQ (EName x)) s3 = Some (robot_now s3 a4, SNone)). { cbn [PyView.exec]. unfold assign_state, numbers. cbn [eval]. rewrite Vx. cbn [bind look]. rewrite E4. reflexivity. }
    exists (robot_now s3 a4). split; [exact X|]. split; [apply (set_q_exact _ _ _ _ E4)|]. split; [reflexivity|]. split; [exact (proj1 (exec_sized _ (PSetQ (EName x)) _ _ _ Z3 eq_refl X))|exact (like_exec ab (PSetQ (EName x)) _ _ _ Lk3 eq_refl X)]. }
  destruct SQ as (s4 & E4 & Q4 & V4 & Z4 & Lk4).
  assert (SV : exists s5, exec (PSetDq (EName y)) s4 = Some (s5, SNone) /\ ab_q (v_ab s5) = ab_q ab /\ ab_dq (v_ab s5) = ab_dq ab /\ like ab (v_ab s5)).
  { destruct (set_dq_fits (ab_dq ab) (v_ab s4)) as [a5 E5]; [apply Z4|rewrite (tk_dq _ T); symmetry; apply Z4|].
    assert (X : exec (PSetDq (EName y)) s4 = Some (robot_now s4 a5, SNone)). { cbn [PyView.exec]. unfold assign_state, numbers. cbn [eval]. rewrite V4, Vy. cbn [bind look]. rewrite E5. reflexivity. }
    exists (robot_now s4 a5). split; [exact X|]. destruct (set_dq_exact _ _ _ _ E5) as [D5 Q5]. split; [cbn; congruence|]. split; [exact D5|]. exact (like_exec ab (PSetDq (EName y)) _ _ _ Lk4 eq_refl X). }
  destruct SV as (s5 & E5 & Q5 & D5 & Lk5). exists s5. cbn [PyView.runs]. rewrite E4, E5. auto.
Qed.
Lemma c67_restore h x y p s s1 l : reached solve pinv h (v_ab s) -> base_fixed false h = true -> x <> y ->
  forallb (leaves x) p = true -> forallb (leaves y) p = true -> forallb moving p = true ->
  runs (PAssign x (ECopy EQ) :: PAssign y (ECopy EDq) :: p) s = Some (s1, l) ->
  exists s', runs (PAssign x (ECopy EQ) :: PAssign y (ECopy EDq) :: p ++ [PSetQ (EName x); PSetDq (EName y)]) s = Some (s', l ++ [SNone; SNone]) /\
  ab_q (v_ab s') = ab_q (v_ab s) /\ ab_dq (v_ab s') = ab_dq (v_ab s) /\
  forall (AC : AddComm S) q, pose_query q || jacobian_query q || dynamics_query q = true ->
  outcome (ask solve pinv q (v_ab s')) = outcome (ask solve pinv q (v_ab s)).
Proof.
  intros R B XY Hx Hy M H. destruct (restore_like h x y p s s1 l R B XY Hx Hy M H) as (s' & E' & Q & V & F & h' & R' & B'). exists s'. repeat (split; [assumption|]).
  intros AC q Hq. destruct (tk_cache _ (tree_reached _ _ _ _ R)) as [m _]. assert (CC : cold (v_ab s) m = cold (v_ab s') m) by (apply frame_cold; auto).
  apply orb_true_iff in Hq. destruct Hq as [Hq|Hq]; [apply orb_true_iff in Hq; destruct Hq as [Hq|Hq]|].
  - rewrite (c03_pose solve pinv h' _ m q R' B' Hq), (c03_pose solve pinv h _ m q R B Hq), CC. reflexivity.
  - rewrite (c03_jac_exact solve pinv h' _ m q R' B' Hq), (c03_jac_exact solve pinv h _ m q R B Hq), CC. reflexivity.
  - rewrite (c04 solve pinv h' _ m q R' B' Hq), (c04 solve pinv h _ m q R B Hq), CC. reflexivity.
Qed.
Lemma c67_restore_dyn {L : ScalLaws S} {PL : PosLaws S} h x y p s s1 l : reached solve pinv h (v_ab s) -> base_fixed false h = true -> proper (v_ab s) -> x <> y ->
  forallb (leaves x) p = true -> forallb (leaves y) p = true -> forallb moving p = true ->
  runs (PAssign x (ECopy EQ) :: PAssign y (ECopy EDq) :: p) s = Some (s1, l) ->
  exists s', runs (PAssign x (ECopy EQ) :: PAssign y (ECopy EDq) :: p ++ [PSetQ (EName x); PSetDq (EName y)]) s = Some (s', l ++ [SNone; SNone]) /\
  forall q, eom_query q = true -> outcome (ask solve pinv q (v_ab s')) = outcome (ask solve pinv q (v_ab s)).
Proof.
  intros R B P XY Hx Hy M H. destruct (restore_like h x y p s s1 l R B XY Hx Hy M H) as (s' & E' & Q & V & F & h' & R' & B'). exists s'. split; [assumption|].
  intros q Hq. destruct (tk_cache _ (tree_reached _ _ _ _ R)) as [m _]. assert (CC : cold (v_ab s) m = cold (v_ab s') m) by (apply frame_cold; auto).
  assert (P' : proper (v_ab s')).
  { assert (X : v_ab s' = set_cache (v_ab s) (ab_cache (v_ab s'))).
    { destruct F as (A1 & A2 & A3 & A4 & A5 & A6 & A7 & A8 & A9 & A10). unfold set_cache. destruct (v_ab s'), (v_ab s). cbn in *. congruence. }
    rewrite X. destruct P. constructor; auto. }
  rewrite (c05 solve pinv h' _ m q R' B' P' Hq), (c05 solve pinv h _ m q R B P Hq), CC. reflexivity.
Qed.
End Exact.
End View.
