(** Lemmas on links kept in variables (C72). *)
From Coq Require Import List Arith ZArith Bool Lia String.
From Verif Require Import Scalar Base Spatial Joint Body Ops PyEdit PyKeep SpecPyKeep TreeProofs EditProofs.
Import ListNotations.

Section KeepProofs.
Context {S : Scal}.
Variable solve : list (list K) -> list K -> list K.
Variable pinv : list (list K) -> K -> list (list K) * bool.
Variable grow : nat -> nat.
Hypothesis bigger : forall n, (n < grow n)%nat.
Notation k_step := (k_step solve pinv grow).
Notation k_run := (k_run solve pinv grow).
Notation m_step := (m_step solve pinv).
Notation m_run := (m_run solve pinv).

Definition meant (s : kstate) : meaning := Mn (k_ab s) (fun x => option_map snd (k_env s x)) (k_out s).
Definition like (m : meaning) (s : kstate) : Prop := m_ab m = k_ab s /\ (forall x, m_env m x = option_map snd (k_env s x)) /\ m_out m = k_out s.

Lemma put_ab ab s : k_ab (k_put grow ab s) = ab.
Proof. unfold k_put. destruct (_ && _); reflexivity. Qed.
Lemma put_env ab s : k_env (k_put grow ab s) = k_env s.
Proof. unfold k_put. destruct (_ && _); reflexivity. Qed.
Lemma put_out ab s : k_out (k_put grow ab s) = k_out s.
Proof. unfold k_put. destruct (_ && _); reflexivity. Qed.
Lemma like_put m s ab : like m s -> like (Mn ab (m_env m) (m_out m)) (k_put grow ab s).
Proof. intros (A & B & C). unfold like. cbn. rewrite put_ab, put_env, put_out. auto. Qed.

(** One step of the storage, when defined, is one step of the meaning. *)
Lemma like_step t m s s' : like m s -> k_step t s = Some s' -> exists m', m_step t m = Some m' /\ like m' s'.
Proof.
  intros LK. pose proof LK as (A & B & C). destruct t; cbn [PyKeep.k_step SpecPyKeep.m_step]; unfold k_use; rewrite ?A, ?B.
  - destruct (idx _ _) as [j|]; intros H; inversion H; subst; eexists; (split; [reflexivity|]); auto.
    unfold like; cbn. split; auto. split; auto. intros y. rewrite B. destruct (y =? x); reflexivity.
  - destruct (k_env s x) as [[g j]|]; cbn; [|intros H; inversion H; subst; eauto].
    destruct (g =? _); [|discriminate]. intros H; inversion H; subst. eexists; split; [reflexivity|]. unfold like; cbn. rewrite C. auto.
  - destruct (k_env s x) as [[g j]|]; cbn [option_map snd]; [|intros H; inversion H; subst; eauto].
    destruct (g =? _); [|discriminate]. destruct (settled _) as [b|]; [|discriminate]. cbn. intros H; inversion H; subst.
    eexists; split; [reflexivity|]. apply like_put; auto.
  - destruct (k_env s x) as [[g j]|]; cbn [option_map snd]; [|intros H; inversion H; subst; eauto].
    destruct (g =? _); [|discriminate]. destruct (step _ _ _ _) as [b|]; [|discriminate]. cbn. intros H; inversion H; subst.
    eexists; split; [reflexivity|]. apply like_put; auto.
  - assert (X : option_map (fun ab => k_put grow ab s) (step solve pinv o (k_ab s)) = Some s' ->
      exists m', option_map (fun ab => Mn ab (m_env m) (m_out m)) (step solve pinv o (k_ab s)) = Some m' /\ like m' s').
    { destruct (step _ _ _ _) as [b|]; [|discriminate]. cbn. intros H; inversion H; subst. eexists; split; [reflexivity|]. apply like_put; auto. }
    destruct o; try exact X. intros H; inversion H; subst; eauto.
Qed.
Lemma like_run p : forall m s s', like m s -> k_run p s = Some s' -> exists m', m_run p m = Some m' /\ like m' s'.
Proof.
  induction p as [|t p IH]; cbn [PyKeep.k_run SpecPyKeep.m_run]; intros m s s' LK H; [inversion H; subst; eauto|].
  destruct (k_step t s) as [s1|] eqn:E; [|discriminate]. destruct (like_step _ _ _ _ LK E) as (m1 & -> & L1). eauto.
Qed.
Lemma c72_meant p name mem s : k_run p (k_new name mem) = Some s -> m_did (m_run p (m_new name mem)) = Some (k_ab s, k_out s).
Proof.
  intros H. destruct (like_run p (m_new name mem) (k_new name mem) s) as (m & -> & A & _ & C); auto; [repeat split|]. cbn. rewrite A, C. reflexivity.
Qed.

(** Links are never removed. *)
Lemma step_links o ab ab' : tree_ok ab -> step solve pinv o ab = Some ab' ->
  (links ab <= links ab' <= Datatypes.S (links ab))%nat /\ (adds (KCall o) = false -> links ab' = links ab).
Proof.
  intros T E. apply step_rbs in E; auto. unfold links. rewrite E. destruct o; cbn [adds]; try (split; [lia|auto]).
  destruct (_ && _); [rewrite app_length; cbn|]; split; try lia; discriminate.
Qed.
Lemma edit_links i e ab ab' : settled (edit_link i e ab) = Some ab' -> links ab' = links ab.
Proof.
  unfold edit_link, links. destruct (idx _ _) as [k|]; cbn; [|intros H; inversion H; auto].
  destruct (edit_rb _ _); cbn; intros H; inversion H; cbn; apply length_replace.
Qed.
(** What a step does to the robot. *)
Lemma m_step_tree t m m' : tree_ok (m_ab m) -> m_step t m = Some m' ->
  tree_ok (m_ab m') /\ (links (m_ab m) <= links (m_ab m') <= Datatypes.S (links (m_ab m)))%nat /\ (adds t = false -> links (m_ab m') = links (m_ab m)).
Proof.
  intros T. destruct t; cbn [SpecPyKeep.m_step].
  - destruct (idx _ _); intros H; inversion H; subst; cbn; (split; [exact T|split; [lia|auto]]).
  - destruct (m_env m x); intros H; inversion H; subst; cbn; (split; [exact T|split; [lia|auto]]).
  - destruct (m_env m x); [|intros H; inversion H; subst; (split; [exact T|split; [lia|auto]])].
    destruct (settled _) as [b|] eqn:E; [|discriminate]. intros H; inversion H; subst. cbn. pose proof (edit_links _ _ _ _ E).
    split; [eapply tree_edit; eauto|]. split; [lia|auto].
  - destruct (m_env m x); [|intros H; inversion H; subst; (split; [exact T|split; [lia|auto]])].
    destruct (step _ _ _ _) as [b|] eqn:E; [|discriminate]. intros H; inversion H; subst. cbn.
    split; [eapply tree_step; eauto|]. split; [apply (step_links _ _ _ T E)|discriminate].
  - assert (X : option_map (fun ab => Mn ab (m_env m) (m_out m)) (step solve pinv o (m_ab m)) = Some m' ->
      tree_ok (m_ab m') /\ (links (m_ab m) <= links (m_ab m') <= Datatypes.S (links (m_ab m)))%nat /\ (adds (KCall o) = false -> links (m_ab m') = links (m_ab m))).
    { destruct (step _ _ _ _) as [b|] eqn:E; [|discriminate]. cbn. intros H; inversion H; subst. cbn.
      split; [eapply tree_step; eauto|]. apply (step_links _ _ _ T E). }
    destruct o; try exact X. intros H; inversion H; subst; (split; [exact T|split; [lia|auto]]).
Qed.
Lemma m_run_tree p : forall m m', tree_ok (m_ab m) -> m_run p m = Some m' ->
  tree_ok (m_ab m') /\ (links (m_ab m) <= links (m_ab m'))%nat /\ (forallb (fun t => negb (adds t)) p = true -> links (m_ab m') = links (m_ab m)).
Proof.
  induction p as [|t p IH]; cbn [SpecPyKeep.m_run forallb]; intros m m' T H; [inversion H; subst; auto|].
  destruct (m_step t m) as [m1|] eqn:E; [|discriminate]. destruct (m_step_tree _ _ _ T E) as (T1 & L1 & A1).
  destruct (IH _ _ T1 H) as (T2 & L2 & A2). split; auto. split; [lia|]. intros N. apply andb_true_iff in N. destruct N as [N1 N2].
  rewrite A2, A1; auto. destruct (adds t); auto; discriminate.
Qed.

(** The storage: the capacity is enough, no variable points into storage of the future,
    and the capacity changes only when the storage moves. *)
Definition stored (s : kstate) : Prop := (links (k_ab s) <= k_cap s)%nat /\ forall x m i, k_env s x = Some (m, i) -> (m <= k_moves s)%nat.
Definition moved (s s' : kstate) : Prop :=
  (k_moves s < k_moves s' /\ k_cap s < links (k_ab s'))%nat \/ (k_moves s' = k_moves s /\ k_cap s' = k_cap s).
Lemma put_stored ab s : (links (k_ab s) <= links ab <= Datatypes.S (links (k_ab s)))%nat -> stored s -> stored (k_put grow ab s) /\ moved s (k_put grow ab s).
Proof.
  intros Hl [Hc He]. unfold stored, moved. rewrite put_ab, put_env. unfold k_put. fold (links (k_ab s)) (links ab).
  destruct ((links (k_ab s) <? links ab) && (k_cap s <=? links (k_ab s))) eqn:B; cbn.
  - apply andb_true_iff in B. destruct B as [B1 B2]. apply Nat.ltb_lt in B1. apply Nat.leb_le in B2. pose proof (bigger (links (k_ab s))).
    split; [split; [lia|]|left; lia]. intros x m i E. apply He in E. lia.
  - apply andb_false_iff in B. split; [split|right; auto]; auto.
    destruct B as [B|B]; [apply Nat.ltb_ge in B|apply Nat.leb_gt in B]; lia.
Qed.
Local Ltac fin A B C D := split; [exact A|split; [exact B|split; [exact C|split; [intros; exact (f_equal (fun f => f _) D)|intros; exact D]]]].
Lemma k_step_inv t s s' : tree_ok (k_ab s) -> stored s -> k_step t s = Some s' ->
  tree_ok (k_ab s') /\ stored s' /\ moved s s' /\ (links (k_ab s) <= links (k_ab s'))%nat /\ (forall x, assigns x t = false -> k_env s' x = k_env s x) /\
  (keeps t = false -> k_env s' = k_env s).
Proof.
  intros T W H. assert (LK : like (meant s) s) by (repeat split).
  destruct (like_step _ _ _ _ LK H) as (m' & M & A & B & C). destruct (m_step_tree t (meant s) m' T M) as (T' & LL & _). cbn in LL. rewrite A in T', LL.
  split; auto.
  assert (P : forall r, option_map (fun ab => k_put grow ab s) r = Some s' -> stored s' /\ moved s s' /\ (links (k_ab s) <= links (k_ab s'))%nat /\ k_env s' = k_env s).
  { intros [b|] E; [|discriminate]. cbn in E. inversion E; subst. rewrite put_ab in LL. destruct (put_stored b s LL W).
    rewrite put_ab, put_env. repeat split; try apply H0; auto. lia. }
  assert (Q : s' = s \/ k_env s' = k_env s /\ k_ab s' = k_ab s /\ k_cap s' = k_cap s /\ k_moves s' = k_moves s ->
    stored s' /\ moved s s' /\ (links (k_ab s) <= links (k_ab s'))%nat /\ k_env s' = k_env s).
  { intros [-> | (E1 & E2 & E3 & E4)]; [split; auto; split; [right; auto|auto]|]. unfold stored, moved. rewrite E1, E2, E3, E4. split; auto. }
  destruct t; cbn [PyKeep.k_step] in H; unfold k_use in H.
  - destruct (idx _ _) as [j|]; inversion H; subst; cbn in *; [|destruct (Q (or_introl eq_refl)) as (X1 & X2 & X3 & X4); fin X1 X2 X3 X4].
    split; [|split; [right; auto|split; [lia|split; [|discriminate]]]].
    + destruct W as [W1 W2]. split; auto. cbn. intros y g0 i0. destruct (y =? x); intros E; [inversion E; subst; auto|eauto].
    + intros y Hy. rewrite Nat.eqb_sym, Hy. reflexivity.
  - destruct (k_env s x) as [[g j]|]; [destruct (g =? _); [|discriminate]|]; inversion H; subst; cbn [keeps assigns] in *;
      [destruct Q as (X1 & X2 & X3 & X4); [right; auto|]|destruct Q as (X1 & X2 & X3 & X4); [left; auto|]]; fin X1 X2 X3 X4.
  - destruct (k_env s x) as [[g j]|]; [destruct (g =? _); [|discriminate]; destruct (P _ H) as (X1 & X2 & X3 & X4); fin X1 X2 X3 X4|].
    inversion H; subst. destruct Q as (X1 & X2 & X3 & X4); [left; auto|]. fin X1 X2 X3 X4.
  - destruct (k_env s x) as [[g j]|]; [destruct (g =? _); [|discriminate]; destruct (P _ H) as (X1 & X2 & X3 & X4); fin X1 X2 X3 X4|].
    inversion H; subst. destruct Q as (X1 & X2 & X3 & X4); [left; auto|]. fin X1 X2 X3 X4.
  - assert (O : o = OCopy \/ option_map (fun ab => k_put grow ab s) (step solve pinv o (k_ab s)) = Some s') by (destruct o; auto).
    destruct O as [-> | O]; [inversion H; subst; destruct Q as (X1 & X2 & X3 & X4); [left; auto|]; fin X1 X2 X3 X4|].
    destruct (P _ O) as (X1 & X2 & X3 & X4). fin X1 X2 X3 X4.
Qed.
Lemma moved_trans a b c : (links (k_ab b) <= links (k_ab c))%nat -> moved a b -> moved b c -> moved a c.
Proof. unfold moved. intros. lia. Qed.
Lemma k_run_inv p : forall s s', tree_ok (k_ab s) -> stored s -> k_run p s = Some s' ->
  tree_ok (k_ab s') /\ stored s' /\ moved s s' /\ (links (k_ab s) <= links (k_ab s'))%nat /\
  (forall x, forallb (fun t => negb (assigns x t)) p = true -> k_env s' x = k_env s x) /\
  (forallb (fun t => negb (keeps t)) p = true -> k_env s' = k_env s).
Proof.
  induction p as [|t p IH]; cbn [PyKeep.k_run forallb]; intros s s' T W H; [inversion H; subst; split; [exact T|split; [exact W|split; [right; auto|split; [lia|auto]]]]|].
  destruct (k_step t s) as [s1|] eqn:E; [|discriminate]. destruct (k_step_inv _ _ _ T W E) as (T1 & W1 & M1 & L1 & A1 & N1).
  destruct (IH _ _ T1 W1 H) as (T2 & W2 & M2 & L2 & A2 & N2). split; auto. split; auto. split; [eapply moved_trans; eauto|]. split; [lia|].
  split; [intros x F|intros F]; apply andb_true_iff in F; destruct F as [F1 F2]; apply negb_true_iff in F1.
  - rewrite A2, A1; auto.
  - rewrite N2, N1; auto.
Qed.
Lemma new_stored name mem : tree_ok (k_ab (k_new name mem)) /\ stored (k_new name mem).
Proof. split; [apply tree_new|]. split; cbn; [lia|discriminate]. Qed.
Lemma run_app p r : forall s, k_run (p ++ r) s = match k_run p s with Some s => k_run r s | None => None end.
Proof. induction p as [|t p IH]; cbn [PyKeep.k_run List.app]; intros s; auto. destruct (k_step t s); auto. Qed.

(** A variable taken before the storage moved. *)
Lemma c72_dangling h s x z i p s' : (exists name mem, k_run h (k_new name mem) = Some s) ->
  idx (links (k_ab s)) z = Some i -> k_run (KKeep x z :: p) s = Some s' -> forallb (fun t => negb (assigns x t)) p = true ->
  (k_cap s < links (k_ab s'))%nat ->
  k_step (KShow x) s' = None /\ (forall e, k_step (KEdit x e) s' = None) /\ (forall q, k_step (KAdd x q) s' = None).
Proof.
  intros (name & mem & R) Q H N C. destruct (new_stored name mem) as [T0 W0]. destruct (k_run_inv _ _ _ T0 W0 R) as (T & W & _).
  cbn [PyKeep.k_run PyKeep.k_step] in H. fold (links (k_ab s)) in H. rewrite Q in H.
  match type of H with PyKeep.k_run _ _ _ _ ?x = _ => set (s1 := x) in H end.
  assert (E1 : k_step (KKeep x z) s = Some s1) by (cbn [PyKeep.k_step]; fold (links (k_ab s)); rewrite Q; reflexivity).
  destruct (k_step_inv _ _ _ T W E1) as (T1 & W1 & _). destruct (k_run_inv _ _ _ T1 W1 H) as (_ & W2 & M2 & _ & A2 & _).
  assert (G : k_env s' x = Some (k_moves s, i)) by (rewrite (A2 x N); cbn; rewrite Nat.eqb_refl; reflexivity).
  assert (D : (k_moves s =? k_moves s') = false).
  { apply Nat.eqb_neq. destruct M2 as [[M2 _]|[_ M2]]; cbn in M2; [lia|]. destruct W2 as [W2 _]. lia. }
  cbn [PyKeep.k_step]. unfold k_use. rewrite G, D. auto.
Qed.

(** Variables pointing into the present storage are as good as numbers, as long as there
    is room. *)
Definition current (s : kstate) : Prop := forall x m i, k_env s x = Some (m, i) -> m = k_moves s.
Lemma room_step t m m' s : tree_ok (k_ab s) -> like m s -> stored s -> current s -> m_step t m = Some m' -> (links (m_ab m') <= k_cap s)%nat ->
  exists s', k_step t s = Some s' /\ like m' s' /\ current s' /\ k_cap s' = k_cap s.
Proof.
  intros T LK W U H C. pose proof LK as (A & B & O).
  assert (D : exists s', k_step t s = Some s').
  { assert (X : forall x, match k_env s x with Some (g, _) => (g =? k_moves s) = true | None => True end).
    { intros x. destruct (k_env s x) as [[g i]|] eqn:E; auto. apply Nat.eqb_eq. eapply U; eauto. }
    destruct t; cbn [PyKeep.k_step SpecPyKeep.m_step] in *; unfold k_use; rewrite ?A, ?B in H.
    - destruct (idx _ _); eauto.
    - specialize (X x). destruct (k_env s x) as [[g i]|]; [rewrite X|]; eauto.
    - specialize (X x). destruct (k_env s x) as [[g i]|]; [rewrite X; cbn in H |]; eauto. destruct (settled _); [cbn; eauto|discriminate].
    - specialize (X x). destruct (k_env s x) as [[g i]|]; [rewrite X; cbn [option_map snd] in H |]; eauto. destruct (step _ _ _ _); [cbn; eauto|discriminate].
    - destruct o; eauto; (destruct (step _ _ _ _); [cbn; eauto|discriminate]). }
  destruct D as [s' E]. destruct (like_step _ _ _ _ LK E) as (m2 & M & L2). rewrite H in M. inversion M; subst m2.
  destruct (k_step_inv _ _ _ T W E) as (_ & _ & V & _ & _ & N). pose proof L2 as (A2 & _). rewrite A2 in C.
  exists s'. split; auto. split; auto. destruct V as [V|[V1 V2]]; [lia|]. split; auto.
  unfold current. rewrite V1. destruct (keeps t) eqn:K; [|rewrite (N eq_refl); exact U].
  destruct t; try discriminate. cbn [PyKeep.k_step] in E. destruct (idx _ _); inversion E; subst; auto. cbn. intros y g j.
  destruct (y =? x); [intros X; inversion X; auto|apply U].
Qed.
Lemma room_run p : forall m m' s, tree_ok (k_ab s) -> like m s -> stored s -> current s -> m_run p m = Some m' -> (links (m_ab m') <= k_cap s)%nat ->
  exists s', k_run p s = Some s' /\ like m' s'.
Proof.
  induction p as [|t p IH]; cbn [PyKeep.k_run SpecPyKeep.m_run]; intros m m' s T LK W U H C; [inversion H; subst; eauto|].
  destruct (m_step t m) as [m1|] eqn:E; [|discriminate].
  assert (Tm : tree_ok (m_ab m)) by (destruct LK as (-> & _); auto). destruct (m_step_tree _ _ _ Tm E) as (T1 & _).
  destruct (m_run_tree _ _ _ T1 H) as (_ & L1 & _). destruct (room_step _ _ _ _ T LK W U E) as (s1 & E1 & LK1 & U1 & C1); [lia|].
  rewrite E1. destruct (k_step_inv _ _ _ T W E1) as (Tk & Wk & _). apply (IH m1 m' s1); auto. lia.
Qed.
Lemma no_keep_current h name mem s : k_run h (k_new name mem) = Some s -> forallb (fun t => negb (keeps t)) h = true -> current s.
Proof.
  intros R N. destruct (new_stored name mem) as [T0 W0]. destruct (k_run_inv _ _ _ T0 W0 R) as (_ & _ & _ & _ & _ & E).
  unfold current. rewrite (E N). discriminate.
Qed.
Lemma m_run_app p r : forall m, m_run (p ++ r) m = match m_run p m with Some m => m_run r m | None => None end.
Proof. induction p as [|t p IH]; cbn [SpecPyKeep.m_run List.app]; intros m; auto. destruct (m_step t m); auto. Qed.
Lemma c72_room h p name mem s m' : k_run h (k_new name mem) = Some s -> forallb (fun t => negb (keeps t)) h = true ->
  m_run (h ++ p) (m_new name mem) = Some m' -> (links (m_ab m') <= k_cap s)%nat -> k_did (k_run (h ++ p) (k_new name mem)) = Some (m_ab m', m_out m').
Proof.
  intros R N H C. destruct (new_stored name mem) as [T0 W0]. destruct (k_run_inv _ _ _ T0 W0 R) as (T & W & _).
  destruct (like_run h (m_new name mem) (k_new name mem) s) as (m1 & M & LK); auto; [repeat split|]. rewrite m_run_app, M in H.
  destruct (room_run p m1 m' s) as (s' & E & A & _ & O); auto; [eapply no_keep_current; eauto|].
  rewrite run_app, R, E. cbn. rewrite A, O. reflexivity.
Qed.

(** Building first, then keeping links. *)
Lemma no_keep_run h : forall m s, like m s -> (forall x, k_env s x = None) -> tree_ok (k_ab s) -> stored s -> forallb (fun t => negb (keeps t)) h = true ->
  forall m', m_run h m = Some m' -> exists s', k_run h s = Some s' /\ like m' s'.
Proof.
  induction h as [|t h IH]; cbn [PyKeep.k_run SpecPyKeep.m_run forallb]; intros m s LK V T W N m' H; [inversion H; subst; eauto|].
  apply andb_true_iff in N. destruct N as [N1 N2]. apply negb_true_iff in N1. destruct (m_step t m) as [m1|] eqn:E; [|discriminate].
  assert (D : exists s1, k_step t s = Some s1).
  { destruct LK as (A & B & _). destruct t; try discriminate; cbn [PyKeep.k_step SpecPyKeep.m_step] in *; unfold k_use; rewrite ?V; rewrite ?A in E; eauto.
    destruct o; eauto; (destruct (step _ _ _ _); [cbn; eauto|discriminate]). }
  destruct D as [s1 E1]. rewrite E1. destruct (like_step _ _ _ _ LK E1) as (m2 & M & L2). rewrite E in M. inversion M; subst m2.
  destruct (k_step_inv _ _ _ T W E1) as (T1 & W1 & _ & _ & _ & K). apply (IH m1 s1); auto. rewrite (K N1). exact V.
Qed.
Lemma c72_build_first h p name mem : forallb (fun t => negb (keeps t)) h = true -> forallb (fun t => negb (adds t)) p = true ->
  k_did (k_run (h ++ p) (k_new name mem)) = m_did (m_run (h ++ p) (m_new name mem)).
Proof.
  intros N A. destruct (new_stored name mem) as [T0 W0].
  destruct (m_run (h ++ p) (m_new name mem)) as [m|] eqn:M.
  - rewrite m_run_app in M. destruct (m_run h (m_new name mem)) as [m1|] eqn:M1; [|discriminate].
    destruct (no_keep_run h (m_new name mem) (k_new name mem)) with (m' := m1) as (s & R & LK); auto; [repeat split|].
    destruct (k_run_inv _ _ _ T0 W0 R) as (T & W & _). pose proof LK as (A1 & _).
    assert (T1 : tree_ok (m_ab m1)) by (rewrite A1; auto). destruct (m_run_tree _ _ _ T1 M) as (_ & _ & NL).
    destruct (room_run p m1 m s) as (s' & E & A2 & _ & O); auto; [eapply no_keep_current; eauto|rewrite (NL A), A1; apply W|].
    rewrite run_app, R, E. cbn. rewrite A2, O. reflexivity.
  - destruct (k_run (h ++ p) (k_new name mem)) as [s|] eqn:R; auto. apply c72_meant in R. rewrite M in R. discriminate.
Qed.

(** Enough links added make every kept link dangle. *)
Lemma add_many rb n : forall s s', tree_ok (k_ab s) -> stored s -> k_run (repeat (KCall (OAdd rb (-1))) n) s = Some s' -> links (k_ab s') = (links (k_ab s) + n)%nat.
Proof.
  induction n as [|n IH]; cbn [repeat PyKeep.k_run]; intros s s' T W H; [inversion H; subst; lia|].
  destruct (k_step _ s) as [s1|] eqn:E; [|discriminate]. destruct (k_step_inv _ _ _ T W E) as (T1 & W1 & _).
  rewrite (IH _ _ T1 W1 H). cbn [PyKeep.k_step] in E. destruct (step _ _ _ _) as [b|] eqn:Q; [|discriminate]. cbn in E. inversion E; subst.
  rewrite put_ab. apply step_rbs in Q; auto. unfold links. rewrite Q.
  destruct ((-1 <=? -1) && (-1 <? Z.of_nat (List.length (ab_rbs (k_ab s)))))%Z eqn:B; [rewrite app_length; cbn; lia|].
  apply andb_false_iff in B. destruct B as [B|B]; [discriminate|apply Z.ltb_ge in B; lia].
Qed.
Lemma c72_eventually h s x z i rb : (exists name mem, k_run h (k_new name mem) = Some s) -> idx (links (k_ab s)) z = Some i ->
  k_run (KKeep x z :: repeat (KCall (OAdd rb (-1))) (k_cap s) ++ [KShow x]) s = None.
Proof.
  intros R Q. change (KKeep x z :: repeat (KCall (OAdd rb (-1))) (k_cap s) ++ [KShow x]) with ((KKeep x z :: repeat (KCall (OAdd rb (-1))) (k_cap s)) ++ [KShow x]).
  rewrite run_app. destruct (k_run (KKeep x z :: repeat (KCall (OAdd rb (-1))) (k_cap s)) s) as [s'|] eqn:E; auto.
  destruct (c72_dangling h s x z i (repeat (KCall (OAdd rb (-1))) (k_cap s)) s' R Q E) as (D & _).
  - apply forallb_forall. intros t Ht. apply repeat_spec in Ht. subst. reflexivity.
  - destruct R as (name & mem & R). destruct (new_stored name mem) as [T0 W0]. destruct (k_run_inv _ _ _ T0 W0 R) as (T & W & _).
    cbn [PyKeep.k_run] in E. destruct (k_step (KKeep x z) s) as [s1|] eqn:E1; [|discriminate]. destruct (k_step_inv _ _ _ T W E1) as (T1 & W1 & _).
    rewrite (add_many _ _ _ _ T1 W1 E). cbn [PyKeep.k_step] in E1. fold (links (k_ab s)) in E1. rewrite Q in E1. inversion E1; subst. cbn [k_ab].
    apply idx_spec in Q. lia.
  - cbn [PyKeep.k_run]. rewrite D. reflexivity.
Qed.
End KeepProofs.
