(** Integrate and Friction (C24, C28). *)
From Coq Require Import List Arith ZArith Bool Lia Reals Lra.
From Verif Require Import Scalar Base Spatial SpecGeo Joint Body Kin InvDyn FwdDyn Opspace OpspaceAba Deriv Sim Ops Instances Specs SpecCache SpecKin SpecDyn SpecReal SpecSim TreeProofs CacheProofs CacheOps BigSum DynApi RealDyn RealCalc RealMotion RealEnergy SpecAba AbaProofs AbaOps AbaCache AbaApi.
Import ListNotations.
Local Existing Instances RScal RLaws RPos REq.
Local Open Scope R_scope.

Section Gen.
Context {S : Scal}.
Lemma set_q_total' (ab : body) q : List.length (ab_q ab) = ab_dof ab -> List.length q = ab_dof ab -> exists ab', set_q q ab = Ret ab' tt /\ ab_dof ab' = ab_dof ab /\ ab_rbs ab' = ab_rbs ab /\ ab_dq ab' = ab_dq ab.
Proof.
  intros E Hq. unfold set_q. rewrite Hq, E, Nat.eqb_refl. cbn [negb]. destruct (veqb (ab_q ab) q); eexists; split; try reflexivity; auto.
Qed.
Lemma set_dq_total' (ab : body) q : List.length (ab_dq ab) = ab_dof ab -> List.length q = ab_dof ab -> exists ab', set_dq q ab = Ret ab' tt.
Proof. intros E Hq. unfold set_dq. rewrite Hq, E, Nat.eqb_refl. cbn [negb]. destruct (veqb (ab_dq ab) q); eexists; reflexivity. Qed.
Lemma seq_res_ok {A B} (f : A -> res B) (g : A -> B) l : (forall x, In x l -> f x = Ok (g x)) -> seq_res (map f l) = Ok (map g l).
Proof. induction l as [|x l IH]; intros H; cbn; auto. rewrite (H x) by (left; auto). cbn [bind]. rewrite IH by (intros; apply H; right; auto). reflexivity. Qed.
End Gen.
Lemma set_q_q (ab ab' : @body RScal) q : set_q q ab = Ret ab' tt -> ab_q ab' = q.
Proof.
  unfold set_q. match goal with |- (if negb ?c then _ else _) = _ -> _ => destruct c end; [|discriminate]. cbn [negb].
  match goal with |- (if negb ?c then _ else _) = _ -> _ => destruct c end; [|discriminate]. cbn [negb].
  match goal with |- (if ?c then _ else _) = _ -> _ => destruct c eqn:V end; intros E; inversion E; subst; auto. apply veqb_eq in V; auto.
Qed.

(** *** Clipping *)
Definition clipped (j : @joint RScal) (q : R) : R :=
  if blt (jqmax j) (Fin q) then match jqmax j with Fin x => x | _ => q end
  else if blt (Fin q) (jqmin j) then match jqmin j with Fin x => x | _ => q end else q.
Lemma clip_q1_ok j q : sane_limits j -> clip_q1 j q = Ok (clipped j q).
Proof.
  intros (A & B & C). unfold clip_q1, clipped. destruct (jqmax j) as [|x|], (jqmin j) as [|y|]; cbn; try congruence;
    repeat match goal with |- context [if ?c then _ else _] => destruct c end; auto.
Qed.
Lemma Reqb_refl x : Reqb x x = true. Proof. apply Reqb_eq; auto. Qed.
Lemma clip_within j q dq : sane_limits j -> within j (clipped j q) (clip_dq1 j (clipped j q) dq).
Proof.
  intros (A & B & C). unfold within. assert (W : bound_le (jqmin j) (@Fin RScal (clipped j q)) /\ bound_le (@Fin RScal (clipped j q)) (jqmax j)).
  { unfold clipped. destruct (jqmax j) as [|x|], (jqmin j) as [|y|]; cbn in *; try congruence; rewrite ?Reqb_refl; cbn; auto.
    - destruct (Rltb x q) eqn:E; split; auto; cbn; [lra|apply Rltb_ge in E; lra].
    - destruct (Rltb x q) eqn:E; [split; auto; lra|]. apply Rltb_ge in E. destruct (Rltb q y) eqn:F; split; auto; cbn; try lra. apply Rltb_ge in F. lra.
    - destruct (Rltb q y) eqn:F; split; auto; cbn; try lra. apply Rltb_ge in F. lra. }
  destruct W as [W1 W2]. split; auto. split; auto. unfold clip_dq1, ble. split; intros E; rewrite E.
  - cbn. rewrite Reqb_refl, ?orb_true_r. cbn [andb]. destruct (Rltb 0 dq) eqn:F; cbn [orb]; [lra|].
    apply Rltb_ge in F. match goal with |- context [if ?c then _ else _] => destruct c end; lra.
  - cbn. rewrite Reqb_refl, ?orb_true_r. cbn [andb]. destruct (Rltb dq 0) eqn:F; rewrite ?orb_true_r; [lra|].
    apply Rltb_ge in F. match goal with |- context [if ?c then _ else _] => destruct c end; lra.
Qed.

(** *** Setting the state *)
Definition fq (ab : @body RScal) (o : int_opts) (q : list R) : list R :=
  if i_limits o then map (fun i => clipped (rb_joint (rb_at ab i)) (@qk RScal q i)) (seq 0 (ab_dof ab)) else q.
Definition fdq (ab : @body RScal) (o : int_opts) (q dq : list R) : list R :=
  if i_limits o then @vec R (ab_dof ab) (fun i => clip_dq1 (rb_joint (rb_at ab i)) (@qk RScal q i) (@qk RScal dq i)) else dq.
Lemma put_ok ab o q dq : List.length (ab_q ab) = ab_dof ab -> List.length (ab_dq ab) = ab_dof ab -> List.length q = ab_dof ab -> List.length dq = ab_dof ab ->
  (i_limits o = true -> forall i, (i < ab_dof ab)%nat -> sane_limits (joint_i ab i)) ->
  exists ab', put o q dq ab = Ok ab' /\ placed ab (fq ab o q) (fdq ab o (fq ab o q) dq) ab'.
Proof.
  intros H1 H2 H3 H4 HS. unfold put.
  assert (E : (if i_limits o then clip_q ab q else Ok q) = Ok (fq ab o q)).
  { unfold fq. destruct (i_limits o); auto. unfold clip_q. apply seq_res_ok. intros i Hi. apply in_seq in Hi. apply clip_q1_ok. apply (HS eq_refl). lia. }
  assert (L : List.length (fq ab o q) = ab_dof ab) by (unfold fq; destruct (i_limits o); auto; rewrite map_length, seq_length; auto).
  match goal with |- context [bind ?x _] => replace x with (Ok (fq ab o q)) by (symmetry; exact E) end. cbn [bind]. destruct (set_q_total' ab (fq ab o q) H1 L) as (ab1 & E1 & D1 & R1 & Q1). rewrite E1. cbn [called bind].
  assert (EQ : (if i_limits o then clip_dq ab1 dq else dq) = fdq ab o (fq ab o q) dq).
  { unfold fdq. destruct (i_limits o); auto. unfold clip_dq. rewrite (set_q_q _ _ _ E1), D1. apply vec_ext. intros i Hi. unfold rb_at. rewrite R1. reflexivity. }
  rewrite EQ. assert (L2 : List.length (fdq ab o (fq ab o q) dq) = ab_dof ab1).
  { rewrite D1. unfold fdq. destruct (i_limits o); auto. apply vec_length. }
  destruct (set_dq_total' ab1 (fdq ab o (fq ab o q) dq)) as (ab2 & E2); [rewrite Q1, D1; auto|exact L2|].
  exists ab2. rewrite E2. split; [reflexivity|]. exists ab1. split; [exact E1|exact E2].
Qed.
Lemma placed_within ab o q dq ab' : i_limits o = true -> (forall i, (i < ab_dof ab)%nat -> sane_limits (joint_i ab i)) ->
  placed ab (fq ab o q) (fdq ab o (fq ab o q) dq) ab' ->
  forall i, (i < ab_dof ab)%nat -> within (joint_i ab i) (@coef RScal (ab_q ab') i) (@coef RScal (ab_dq ab') i).
Proof.
  intros Ho HS Hp i Hi. destruct (placed_at _ _ _ _ Hp) as (_ & _ & ->). cbn [ab_q ab_dq set_cache at_]. unfold fdq, fq. rewrite Ho.
  change (map ?f (seq 0 (ab_dof ab))) with (@vec R (ab_dof ab) f).
  rewrite !(@coef_vec RScal) by auto. rewrite ?(@qk_vec RScal) by auto. apply clip_within. apply HS; auto.
Qed.

Ltac lists_ := unfold vplus, vtimes; repeat change (map ?f (seq 0 ?n)) with (@vec R n f); apply vec_ext; let i := fresh "i" in let Hi := fresh "Hi" in intros i Hi;
  repeat rewrite (@coef_vec RScal) by auto; cbn [kadd kmul kdiv klit khalf RScal]; unfold khalf; cbn [klit RScal];
  repeat change (@qk RScal ?x ?i) with (@coef RScal x i).

(** *** The three methods *)
Section Run.
Variables (ab0 : @body RScal) (P : @body RScal -> Prop) (fd : @body RScal -> res (@body RScal * list R)) (acc : list R -> list R -> list R).
Hypothesis DF : dynamics_of ab0 P fd acc.
Variable o : int_opts.
Hypothesis SL : i_limits o = true -> forall i, (i < ab_dof ab0)%nat -> sane_limits (joint_i ab0 i).

Lemma put_P b q dq : P b -> List.length q = ab_dof ab0 -> List.length dq = ab_dof ab0 ->
  exists b', put o q dq b = Ok b' /\ P b' /\ ab_q b' = fq ab0 o q /\ ab_dq b' = fdq ab0 o (fq ab0 o q) dq.
Proof.
  intros Pb Hq Hd. destruct (df_robot _ _ _ _ DF b Pb) as (D & Rb & Lq & Ld).
  assert (J : forall i, joint_i b i = joint_i ab0 i) by (intros; unfold joint_i; rewrite Rb; auto).
  assert (RA : forall i, rb_at b i = rb_at ab0 i) by (intros; unfold rb_at; rewrite Rb; auto).
  destruct (put_ok b o q dq) as (b' & E & Hp); try (rewrite D; assumption).
  { intros Ho i Hi. rewrite J. apply SL; auto. rewrite <- D. auto. }
  exists b'. split; auto. split; [apply (df_place _ _ _ _ DF b _ _ _ Pb Hp)|].
  assert (F1 : fq b o q = fq ab0 o q). { unfold fq. destruct (i_limits o); auto. rewrite D. apply map_ext. intros. rewrite RA. auto. }
  assert (F2 : forall x, fdq b o x dq = fdq ab0 o x dq). { intros x. unfold fdq. destruct (i_limits o); auto. rewrite D. apply vec_ext. intros. rewrite RA. auto. }
  rewrite F1, F2 in Hp. destruct (placed_at _ _ _ _ Hp) as (_ & _ & ->). auto.
Qed.
Lemma put_end b q dq b' : P b -> List.length q = ab_dof ab0 -> List.length dq = ab_dof ab0 -> put o q dq b = Ok b' -> i_limits o = true ->
  forall i, (i < ab_dof ab0)%nat -> within (joint_i ab0 i) (@coef RScal (ab_q b') i) (@coef RScal (ab_dq b') i).
Proof.
  intros Pb Hq Hd E Ho i Hi. destruct (put_P b q dq Pb Hq Hd) as (b2 & E2 & _ & Q & D). rewrite E in E2. injection E2 as <-. rewrite Q, D.
  unfold fdq, fq. rewrite Ho. change (map ?f (seq 0 (ab_dof ab0))) with (@vec R (ab_dof ab0) f).
  rewrite !(@coef_vec RScal) by auto. rewrite ?(@qk_vec RScal) by auto. apply clip_within. apply SL; auto.
Qed.

Ltac fdstep Pb := let b := fresh "b" in let E := fresh "E" in let P' := fresh "Pb" in let Q := fresh "Q" in let D := fresh "D" in
  destruct (df_fd _ _ _ _ DF _ Pb) as (b & E & P' & Q & D); rewrite E; cbn [bind].
Ltac putstep Pb := let b := fresh "b" in let E := fresh "E" in let P' := fresh "Pb" in let Q := fresh "Q" in let D := fresh "D" in
  match goal with |- context [put o ?q ?dq ?x] => destruct (put_P x q dq Pb (vec_length _ _) (vec_length _ _)) as (b & E & P' & Q & D); rewrite E; cbn [bind] end.

Lemma integrate_limits dt ab : P ab -> i_limits o = true ->
  exists ab', integrate fd o dt ab = Ok ab' /\ P ab' /\ forall i, (i < ab_dof ab0)%nat -> within (joint_i ab0 i) (@coef RScal (ab_q ab') i) (@coef RScal (ab_dq ab') i).
Proof.
  intros Pb Ho. destruct (df_robot _ _ _ _ DF _ Pb) as (D0 & _).
  assert (FIN : forall b f g, P b -> exists ab', put o (vec (ab_dof ab0) f) (vec (ab_dof ab0) g) b = Ok ab' /\ P ab' /\
     forall i, (i < ab_dof ab0)%nat -> within (joint_i ab0 i) (@coef RScal (ab_q ab') i) (@coef RScal (ab_dq ab') i)).
  { intros b f g Hb. destruct (put_P b (vec (ab_dof ab0) f) (vec (ab_dof ab0) g) Hb (vec_length _ _) (vec_length _ _)) as (b' & E & Pb' & _).
    exists b'. split; auto. split; auto. apply (put_end b _ _ b' Hb (vec_length _ _) (vec_length _ _) E Ho). }
  unfold integrate. rewrite D0. fdstep Pb. unfold vlin. destruct (i_method o).
  - apply FIN; auto.
  - putstep Pb0. fdstep Pb1. apply FIN; auto.
  - putstep Pb0. fdstep Pb1. putstep Pb2. fdstep Pb3. putstep Pb4. fdstep Pb5. apply FIN; auto.
Qed.

Lemma vec_eq (f g : nat -> R) n : (forall i, (i < n)%nat -> f i = g i) -> vec n f = map g (seq 0 n).
Proof. intros H. apply vec_ext. exact H. Qed.
Lemma integrate_formula dt ab : P ab -> i_limits o = false ->
  exists ab', integrate fd o dt ab = Ok ab' /\ P ab' /\ state_of ab' = textbook (i_method o) (ab_dof ab0) acc dt (state_of ab).
Proof.
  intros Pb Ho. destruct (df_robot _ _ _ _ DF _ Pb) as (D0 & _).
  assert (FQ : forall q, fq ab0 o q = q) by (intros; unfold fq; rewrite Ho; auto).
  assert (FD : forall q dq, fdq ab0 o q dq = dq) by (intros; unfold fdq; rewrite Ho; auto).
  unfold integrate. rewrite D0. fdstep Pb. unfold vlin. destruct (i_method o).
  - putstep Pb0. exists b0. split; auto. split; auto. unfold state_of. rewrite Q0, D1, FQ, FD. cbn [textbook fst snd]. unfold ballistic. cbn [fst snd]. f_equal.
    + lists_. toR. field.
    + lists_. toR. field.
  - putstep Pb0. fdstep Pb1. putstep Pb2. exists b2. split; auto. split; auto. unfold state_of. rewrite Q2, D3, FQ, FD. clear Q2 D3.
    rewrite FQ in Q0, D1. rewrite FD in D1.
    assert (X1 : ab_q b0 = vplus (ab_dof ab0) (ab_q ab) (vtimes (ab_dof ab0) dt (ab_dq ab))) by (rewrite Q0; lists_; toR; field).
    assert (X2 : ab_dq b0 = vplus (ab_dof ab0) (ab_dq ab) (vtimes (ab_dof ab0) dt (acc (ab_q ab) (ab_dq ab)))) by (rewrite D1; lists_; toR; field).
    rewrite X1, X2. unfold textbook, heun, flow, pplus, ptimes. cbn [fst snd]. f_equal.
    + lists_. toR. field.
    + lists_. toR. field.
  - putstep Pb0. fdstep Pb1. putstep Pb2. fdstep Pb3. putstep Pb4. fdstep Pb5. putstep Pb6. exists b6. split; auto. split; auto. unfold state_of. rewrite Q6, D7, FQ, FD. clear Q6 D7.
    rewrite FQ in Q0, D1, Q2, D3, Q4, D5. rewrite FD in D1, D3, D5.
    assert (X1 : ab_q b0 = vplus (ab_dof ab0) (ab_q ab) (vtimes (ab_dof ab0) (dt / 2) (ab_dq ab))) by (rewrite Q0; lists_; toR; field).
    assert (X2 : ab_dq b0 = vplus (ab_dof ab0) (ab_dq ab) (vtimes (ab_dof ab0) (dt / 2) (acc (ab_q ab) (ab_dq ab)))) by (rewrite D1; lists_; toR; field).
    rewrite X1, X2 in *. 
    match goal with |- context [acc (vplus ?n ?a ?b) (vplus ?n ?c ?d)] => set (a1 := acc (vplus n a b) (vplus n c d)) in * end.
    set (v1 := vplus (ab_dof ab0) (ab_dq ab) (vtimes (ab_dof ab0) (dt / 2) (acc (ab_q ab) (ab_dq ab)))) in *.
    assert (X3 : ab_q b2 = vplus (ab_dof ab0) (ab_q ab) (vtimes (ab_dof ab0) (dt / 2) v1)) by (rewrite Q2; lists_; toR; field).
    assert (X4 : ab_dq b2 = vplus (ab_dof ab0) (ab_dq ab) (vtimes (ab_dof ab0) (dt / 2) a1)) by (rewrite D3; lists_; toR; field).
    rewrite X3, X4 in *.
    set (a2 := acc (vplus (ab_dof ab0) (ab_q ab) (vtimes (ab_dof ab0) (dt / 2) v1)) (vplus (ab_dof ab0) (ab_dq ab) (vtimes (ab_dof ab0) (dt / 2) a1))) in *.
    set (v2 := vplus (ab_dof ab0) (ab_dq ab) (vtimes (ab_dof ab0) (dt / 2) a1)) in *.
    assert (X5 : ab_q b4 = vplus (ab_dof ab0) (ab_q ab) (vtimes (ab_dof ab0) dt v2)) by (rewrite Q4; lists_; toR; field).
    assert (X6 : ab_dq b4 = vplus (ab_dof ab0) (ab_dq ab) (vtimes (ab_dof ab0) dt a2)) by (rewrite D5; lists_; toR; field).
    rewrite X5, X6. unfold textbook, rk4, flow, pplus, ptimes. cbn [fst snd]. fold v1. fold a1. fold v2. fold a2. f_equal.
    + lists_. toR. field.
    + lists_. toR. field.
Qed.
End Run.

Lemma constant_exact m n a dt (y : list R * list R) : textbook m n (fun _ _ => a) dt y = ballistic n a dt y.
Proof.
  destruct y as [q dq], m; [reflexivity| |]; unfold textbook, heun, rk4, flow, pplus, ptimes, ballistic; cbn [fst snd]; f_equal; lists_; toR; field.
Qed.

Section Robot.
Variable solve : list (list R) -> list R -> list R.
Variable pinv : list (list R) -> R -> list (list R) * bool.
Variables (h : list (@op RScal)) (ab : @body RScal) (aba : bool) (tau : list R) (fe : @fmap RScal) (o : @id_opts RScal).
Hypothesis Rh : reached solve pinv h ab.
Hypothesis Bf : base_fixed false h = true.
Hypothesis Un : aba = true -> unmixed h = true.
Hypothesis Pr : aba = false -> proper ab.
Hypothesis Lt : List.length tau = ab_dof ab.

Definition calm (x : @op RScal) : bool := match x with OSetQ _ | OSetDq _ | OAsk (QFD _ _ _) | OAsk (QAba _ _ _) => true | _ => false end.
Lemma calm_fixed h1 h2 b : base_fixed b h1 = true -> forallb calm h2 = true -> base_fixed b (h1 ++ h2) = true.
Proof.
  revert b. induction h1 as [|x h1 IH]; intros b H1 H2.
  - revert b H1. cbn [app]. induction h2 as [|y h2 IH2]; intros b H1; auto. cbn [forallb] in H2. apply andb_true_iff in H2. destruct H2 as [Hy H2].
    destruct y; try discriminate Hy; cbn; apply IH2; auto.
  - destruct x; cbn in *; auto. apply andb_true_iff in H1. destruct H1 as [-> H1]. cbn. auto.
Qed.
Lemma calm_unmixed h1 h2 : unmixed h1 = true -> forallb calm h2 = true -> unmixed (h1 ++ h2) = true.
Proof.
  unfold unmixed. intros H1 H2. rewrite !forallb_app.
  assert (A : forallb (fun o => negb (opspace_aba o)) h2 = true /\ forallb (fun o => negb (load_op o)) h2 = true).
  { clear H1. induction h2 as [|y h2 IH2]; auto. cbn [forallb] in H2 |- *. apply andb_true_iff in H2. destruct H2 as [Hy H2]. destruct (IH2 H2) as [-> ->].
    destruct y; try discriminate Hy; auto. destruct q; try discriminate Hy; auto. }
  destruct A as [-> ->]. rewrite !andb_true_r. exact H1.
Qed.
Definition Pc (b : @body RScal) : Prop := exists h2, forallb calm h2 = true /\ reached solve pinv (h ++ h2) b /\ b = set_cache (at_ ab (ab_q b) (ab_dq b)) (ab_cache b).
Lemma Pc_ab : Pc ab.
Proof. exists nil. rewrite app_nil_r. split; auto. split; auto. destruct ab; reflexivity. Qed.
Lemma calm_app h1 h2 : forallb calm h1 = true -> forallb calm h2 = true -> forallb calm (h1 ++ h2) = true.
Proof. intros A B. rewrite forallb_app, A, B. reflexivity. Qed.
Lemma Pc_place b q dq b' : Pc b -> placed b q dq b' -> Pc b'.
Proof.
  intros (h2 & C & R2 & E) Hp. exists (h2 ++ [@OSetQ RScal q; @OSetDq RScal dq]). split; [apply calm_app; auto|]. rewrite app_assoc.
  split; [apply (placed_reached _ _ _ _ _ _ _ R2 Hp)|]. destruct (placed_at _ _ _ _ Hp) as (_ & _ & ->). rewrite E. reflexivity.
Qed.
Lemma Pc_dof b : Pc b -> ab_dof b = ab_dof ab /\ ab_rbs b = ab_rbs ab /\ List.length (ab_q b) = ab_dof ab /\ List.length (ab_dq b) = ab_dof ab.
Proof.
  intros (h2 & C & R2 & E). pose proof (tree_reached _ _ _ _ R2) as T. assert (D : ab_dof b = ab_dof ab) by (rewrite E; reflexivity).
  split; auto. split; [rewrite E; reflexivity|]. rewrite <- D. split; [apply (tk_q _ T)|apply (tk_dq _ T)].
Qed.
Lemma Pc_proper b : Pc b -> aba = false -> proper b.
Proof. intros (h2 & C & R2 & E) Ha. rewrite E. apply at_proper. auto. Qed.
Lemma Pc_fresh b mem : Pc b -> outcome (ask solve pinv (sim_query aba tau fe o) b) = outcome (ask solve pinv (sim_query aba tau fe o) (cold b mem)).
Proof.
  intros Hb. pose proof Hb as (h2 & C & R2 & E). unfold sim_query. pose proof (calm_fixed _ _ _ Bf C) as B2. pose proof (Pc_proper b Hb) as PP. clear Pr. destruct aba.
  - apply (@c18_fresh RScal (@laws_comm RScal RLaws) solve pinv (h ++ h2) b tau fe o mem R2 B2). apply calm_unmixed; auto.
  - apply (@c05 RScal RLaws RPos solve pinv (h ++ h2) b mem _ R2 B2); auto.
Qed.
Lemma Pc_ask b : Pc b -> exists b' a, sim_fd solve aba tau fe o b = Ok (b', a) /\ ask solve pinv (sim_query aba tau fe o) b = Ok (b', AVec a).
Proof.
  intros Hb. pose proof Hb as (h2 & C & R2 & E). pose proof (Pc_dof b Hb) as (D & _). pose proof (calm_fixed _ _ _ Bf C) as B2.
  destruct (@reached_wfc RScal solve pinv (@laws_comm RScal RLaws) _ _ R2 B2) as [T W].
  assert (X : exists b' a, sim_fd solve aba tau fe o b = Ok (b', a)).
  { unfold sim_fd. pose proof (Pc_proper b Hb) as PP. clear Pr. destruct aba.
    - unfold q_ForwardDynamicsAba. replace (Nat.eqb _ _) with true by (symmetry; apply Nat.eqb_eq; rewrite D; exact Lt).
      unfold on_cache. destruct W as (c & -> & _). destruct (forward_dynamics_aba b tau fe o c). cbn [bind]. eauto.
    - pose proof (@out_FD RScal RLaws RPos solve b T W tau fe o (PP eq_refl)) as X.
      destruct (@q_ForwardDynamics RScal solve tau fe o b) as [[b' a]| |]; [eauto| |]; cbn in X;
      (match type of X with context [Nat.eqb ?x ?y] => replace (Nat.eqb x y) with true in X by (symmetry; apply Nat.eqb_eq; rewrite D; exact Lt) end; discriminate X). }
  destruct X as (b' & a & X). exists b', a. split; auto. unfold sim_fd in X. unfold sim_query. destruct aba; cbn [ask]; rewrite X; reflexivity.
Qed.
Lemma robot_dynamics : dynamics_of ab Pc (sim_fd solve aba tau fe o) (accel solve pinv ab (sim_query aba tau fe o)).
Proof.
  constructor; [apply Pc_dof|apply Pc_place|].
  intros b Hb. destruct (Pc_ask b Hb) as (b' & a & X & Y). exists b'. destruct (ask_frame _ _ _ _ _ _ Y) as [c Ec].
  assert (A : accel solve pinv ab (sim_query aba tau fe o) (ab_q b) (ab_dq b) = a).
  { pose proof (Pc_dof b Hb) as (D & _ & Lq & Ld). destruct (placed_exists solve pinv h ab (ab_q b) (ab_dq b) Rh Lq Ld) as (ab2 & ab1 & E1 & E2).
    unfold accel. change (list (@K RScal)) with (list R) in *. rewrite E1, E2.
    assert (Hp : placed ab (ab_q b) (ab_dq b) ab2) by (exists ab1; auto). pose proof (Pc_place _ _ _ _ Pc_ab Hp) as H2.
    rewrite (Pc_fresh ab2 (match ab_cache b with Some c => c | None => match ab_cache b' with Some c => c | None => c end end) H2).
    pose proof (Pc_fresh b (match ab_cache b with Some c => c | None => match ab_cache b' with Some c => c | None => c end end) Hb) as F. rewrite Y in F. cbn [outcome bind] in F.
    destruct (placed_at _ _ _ _ Hp) as (_ & _ & E2'). destruct Hb as (h2 & _ & _ & Eb).
    assert (CO : forall m, cold ab2 m = cold b m) by (intros m; rewrite E2', Eb; reflexivity). rewrite CO, <- F. reflexivity. }
  split; [rewrite A; exact X|]. subst b'. split; [|auto].
  destruct Hb as (h2 & C & R2 & E). exists (h2 ++ [OAsk (sim_query aba tau fe o)]). split; [apply calm_app; auto; unfold sim_query; destruct aba; reflexivity|].
  rewrite app_assoc. split.
  - destruct R2 as (nm & mem & R2). exists nm, mem. rewrite run_app, R2. cbn [run step]. rewrite Y. reflexivity.
  - rewrite E. reflexivity.
Qed.

Lemma c28_formula io dt : i_limits io = false ->
  exists ab', step solve pinv (OIntegrate aba tau fe o io dt) ab = Some ab' /\
    state_of ab' = textbook (i_method io) (ab_dof ab) (accel solve pinv ab (sim_query aba tau fe o)) dt (state_of ab).
Proof.
  intros Ho. destruct (integrate_formula _ _ _ _ robot_dynamics io (fun E => ltac:(congruence)) dt ab Pc_ab Ho) as (ab' & E & _ & S).
  exists ab'. cbn [step]. split; [|exact S]. match goal with |- match ?x with _ => _ end = _ => replace x with (Ok ab') by (symmetry; exact E) end. reflexivity.
Qed.
Lemma c28_limits io dt : i_limits io = true -> (forall i, (i < ab_dof ab)%nat -> sane_limits (joint_i ab i)) ->
  exists ab', step solve pinv (OIntegrate aba tau fe o io dt) ab = Some ab' /\
    forall i, (i < ab_dof ab)%nat -> within (joint_i ab i) (@coef RScal (ab_q ab') i) (@coef RScal (ab_dq ab') i).
Proof.
  intros Ho HS. destruct (integrate_limits _ _ _ _ robot_dynamics io (fun _ => HS) dt ab Pc_ab Ho) as (ab' & E & _ & S).
  exists ab'. cbn [step]. split; [|exact S]. match goal with |- match ?x with _ => _ end = _ => replace x with (Ok ab') by (symmetry; exact E) end. reflexivity.
Qed.
End Robot.

(** *** Friction *)
Lemma sign_pos x : 0 < x -> sign x = 1.
Proof. unfold sign. destruct (Rlt_dec 0 x); auto. lra. Qed.
Lemma sign_neg x : x < 0 -> sign x = -1.
Proof. unfold sign. destruct (Rlt_dec 0 x); [lra|]. destruct (Rlt_dec x 0); auto. lra. Qed.
Lemma sign_0 : sign 0 = 0.
Proof. unfold sign. destruct (Rlt_dec 0 0); [lra|]. destruct (Rlt_dec 0 0); auto. Qed.
Lemma signum_out x eps : 0 <= eps -> eps < Rabs x -> @signum RScal x eps = sign x.
Proof.
  intros He Hx. unfold signum. cbn. destruct (Rltb eps x) eqn:E1, (Rltb x (- eps)) eqn:E2;
  try apply Rltb_lt in E1; try apply Rltb_lt in E2; try apply Rltb_ge in E1; try apply Rltb_ge in E2.
  - lra.
  - rewrite sign_pos by lra. lra.
  - rewrite sign_neg by lra. lra.
  - unfold Rabs in Hx. destruct (Rcase_abs x); lra.
Qed.
Lemma signum_in x eps : 0 <= eps -> Rabs x <= eps -> @signum RScal x eps = 0.
Proof.
  intros He Hx. unfold signum. cbn. replace (Rltb eps x) with false by (symmetry; apply Rltb_ge; unfold Rabs in Hx; destruct (Rcase_abs x); lra).
  replace (Rltb x (- eps)) with false by (symmetry; apply Rltb_ge; unfold Rabs in Hx; destruct (Rcase_abs x); lra). lra.
Qed.
Lemma signum_0 x : @signum RScal x (IZR Z0) = sign x.
Proof.
  destruct (Req_dec x 0) as [->|H].
  - rewrite sign_0. apply signum_in; [apply Rle_refl|]. rewrite Rabs_R0. apply Rle_refl.
  - apply signum_out; [apply Rle_refl|]. apply Rabs_pos_lt; auto.
Qed.
Lemma friction_static (j : @joint RScal) dq t comp eps : 0 <= eps -> Rabs dq <= eps \/ jcoulomb j = 0 ->
  @friction1 RScal j dq t comp eps = jviscous j * dq + (if comp then jcoulomb j + jstiction j else Rmin (jcoulomb j + jstiction j) (Rabs t)) * sign t.
Proof.
  intros He H. unfold friction1. cbn [kmul kadd keq RScal k0 kabs]. 
  assert (Z : jcoulomb j * @signum RScal dq eps = 0) by (destruct H as [H|H]; [rewrite signum_in by auto; cbn; lra|cbn in *; rewrite H; lra]).
  replace (Reqb (jcoulomb j * @signum RScal dq eps) 0) with true by (symmetry; apply Reqb_eq; exact Z).
  f_equal. rewrite signum_0. destruct comp; auto. f_equal.
  unfold kmin, Rmin. cbn [klt RScal]. destruct (Rle_dec (jcoulomb j + jstiction j) (Rabs t)) as [L|L].
  - match goal with |- context [if ?c then _ else _] => destruct c eqn:E end; auto. apply Rltb_lt in E. lra.
  - match goal with |- context [if ?c then _ else _] => destruct c eqn:E end; auto. apply Rltb_ge in E. lra.
Qed.
Lemma friction_kinetic (j : @joint RScal) dq t comp eps : 0 <= eps -> eps < Rabs dq -> 0 < jcoulomb j ->
  @friction1 RScal j dq t comp eps = jviscous j * dq + jcoulomb j * sign dq.
Proof.
  intros He H Hc. unfold friction1. rewrite signum_out by auto. cbn [kmul kadd keq RScal k0 kabs].
  destruct (Reqb (jcoulomb j * sign dq) 0) eqn:E; auto. exfalso. apply Reqb_eq in E.
  assert (dq <> 0) by (intros ->; rewrite Rabs_R0 in H; lra). destruct (Rlt_dec 0 dq); [rewrite sign_pos in E by auto; lra|rewrite sign_neg in E by lra; lra].
Qed.
Lemma sign_mul x : x * sign x = Rabs x.
Proof. unfold sign, Rabs. destruct (Rlt_dec 0 x), (Rcase_abs x); try lra. destruct (Rlt_dec x 0); lra. destruct (Rlt_dec x 0); lra. Qed.
Lemma static_bounds mu t : 0 <= mu -> let s := Rmin mu (Rabs t) * sign t in
  0 <= s * t /\ Rabs s <= Rabs t /\ Rabs s <= mu /\ 0 <= (t - s) * t /\ (Rabs t <= mu -> s = t).
Proof.
  intros Hm s. unfold s. unfold sign. destruct (Rlt_dec 0 t) as [P|P]; [|destruct (Rlt_dec t 0) as [N|N]].
  - rewrite (Rabs_right t) by lra. rewrite Rmult_1_r. unfold Rmin. destruct (Rle_dec mu t).
    + rewrite (Rabs_right mu) by lra. repeat split; try lra; nra.
    + rewrite (Rabs_right t) by lra. repeat split; try lra; nra.
  - rewrite (Rabs_left t) by lra. unfold Rmin. destruct (Rle_dec mu (- t)).
    + replace (mu * -1) with (- mu) by lra. rewrite Rabs_Ropp, (Rabs_right mu) by lra. repeat split; try lra; nra.
    + replace (- t * -1) with t by lra. rewrite (Rabs_left t) by lra. repeat split; try lra; nra.
  - assert (t = 0) by lra. subst t. rewrite !Rmult_0_r, ?Rabs_R0. repeat split; lra.
Qed.
Lemma c24 (ab : @body RScal) tau comp eps i : (i < ab_dof ab)%nat -> (ab_dof ab <= List.length tau)%nat -> 0 <= eps -> friction_coefficients (joint_i ab i) ->
  exists F, Friction ab tau comp eps = Ok F /\ List.length F = ab_dof ab /\
  let j := joint_i ab i in let dq := @coef RScal (ab_dq ab) i in let t := @coef RScal tau i in let f := @coef RScal F i in
  (eps < Rabs dq -> 0 < jcoulomb j -> f = jviscous j * dq + jcoulomb j * sign dq /\ f * dq = jviscous j * (dq * dq) + jcoulomb j * Rabs dq /\ 0 <= f * dq) /\
  (Rabs dq <= eps \/ jcoulomb j = 0 -> exists s, f = jviscous j * dq + s /\
     if comp then s = (jcoulomb j + jstiction j) * sign t
     else s = Rmin (jcoulomb j + jstiction j) (Rabs t) * sign t /\ 0 <= s * t /\ Rabs s <= Rabs t /\ Rabs s <= jcoulomb j + jstiction j /\ 0 <= (t - s) * t /\ (Rabs t <= jcoulomb j + jstiction j -> s = t)).
Proof.
  intros Hi Hl He (C1 & C2 & C3). unfold Friction. match goal with |- context [Nat.ltb ?a ?b] => replace (Nat.ltb a b) with false by (symmetry; apply Nat.ltb_ge; exact Hl) end.
  eexists. split; [reflexivity|]. split; [apply vec_length|]. cbv zeta. rewrite (@coef_vec RScal) by auto. unfold friction_arr.
  change (rb_joint (rb_at ab i)) with (joint_i ab i) in *. set (j := joint_i ab i) in *. change (@qk RScal ?x i) with (@coef RScal x i).
  set (dq := @coef RScal (ab_dq ab) i). set (t := @coef RScal tau i). split.
  - intros H Hc. rewrite friction_kinetic by auto. split; auto.
    assert (E : (jviscous j * dq + jcoulomb j * sign dq) * dq = jviscous j * (dq * dq) + jcoulomb j * Rabs dq) by (rewrite <- (sign_mul dq); ring).
    split; [exact E|]. rewrite E. pose proof (Rabs_pos dq). assert (0 <= dq * dq) by nra.
    apply Rplus_le_le_0_compat; apply Rmult_le_pos; auto.
  - intros H. rewrite friction_static by auto. eexists. split; [reflexivity|]. destruct comp; auto. split; auto. apply static_bounds. unfold K in *; cbn in *. lra.
Qed.
Lemma c24_out (ab : @body RScal) tau comp eps : (List.length tau < ab_dof ab)%nat -> Friction ab tau comp eps = UB.
Proof. intros H. unfold Friction. match goal with |- context [Nat.ltb ?a ?b] => replace (Nat.ltb a b) with true by (symmetry; apply Nat.ltb_lt; exact H) end. auto. Qed.
Lemma c24_drives (ab : @body RScal) tau comp eps i : (i < ab_dof ab)%nat -> (ab_dof ab <= List.length tau)%nat -> 0 <= eps ->
  jcoulomb (joint_i ab i) = 0 -> jviscous (joint_i ab i) = 0 -> 0 < jstiction (joint_i ab i) -> @coef RScal tau i * @coef RScal (ab_dq ab) i < 0 ->
  exists F, Friction ab tau comp eps = Ok F /\ @coef RScal F i * @coef RScal (ab_dq ab) i < 0.
Proof.
  intros Hi Hl He C V ST H. destruct (c24 ab tau comp eps i Hi Hl He) as (F & E & _ & _ & HF); [unfold friction_coefficients; rewrite C, V; lra|].
  exists F. split; auto. cbv zeta in HF. destruct (HF (or_intror C)) as (s & Es & HS). rewrite Es, V, C in *. clear Es HF E.
  set (t := @coef RScal tau i) in *. set (d := @coef RScal (ab_dq ab) i) in *. set (m := jstiction (joint_i ab i)) in *.
  assert (t <> 0) by (intros Z; rewrite Z in H; lra).
  assert (X : 0 < s * t).
  { destruct comp.
    - subst s. replace ((0 + m) * sign t * t) with (m * (t * sign t)) by (cbn; ring). rewrite sign_mul. apply Rmult_lt_0_compat; auto. apply Rabs_pos_lt; auto.
    - destruct HS as (-> & _). replace (Rmin (0 + m) (Rabs t) * sign t * t) with (Rmin (0 + m) (Rabs t) * (t * sign t)) by ring. rewrite sign_mul.
      pose proof (Rabs_pos_lt t H0). apply Rmult_lt_0_compat; auto. unfold Rmin. destruct (Rle_dec (0 + m) (Rabs t)); lra. }
  replace ((0 * d + s) * d) with (s * d) by ring. assert (Y : (s * t) * (t * d) < 0) by nra. assert (0 < t * t) by nra.
  replace (s * t * (t * d)) with ((t * t) * (s * d)) in Y by ring. nra.
Qed.
