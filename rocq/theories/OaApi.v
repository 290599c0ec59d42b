(** The articulated-body task functions at the API (C59). *)
From Coq Require Import List Arith ZArith Bool Lia Ring Field.
From Verif Require Import Scalar Base Spatial SpecGeo Joint Body Kin InvDyn FwdDyn Opspace OpspaceAba Deriv Sim Ops Control Specs SpecCache SpecKin SpecDyn SpecAba SpecOps SpecControl SpatialTac SpatialProofs TreeProofs CacheProofs CacheOps BigSum KinProofs WorldProofs DynProofs AbaProofs AinvProofs AbaOps AbaLaws LoadProofs DynApi AbaCache AbaApi OpsCache OpsAlg OpsApi OpsTask ControlProofs OaValues OaCache OaLaws.
Import ListNotations.

(** ** A matrix has one Moore-Penrose inverse; that of a symmetric matrix is symmetric *)
Section Penrose.
Context {S : Scal} {L : ScalLaws S}.
Local Open Scope k_scope.
Add Field kf : (@kfield S L).
Variable n : nat.
Definition pen (A B : nat -> nat -> K) : Prop :=
  eqm n n (fm n (fm n A B) A) A /\ eqm n n (fm n (fm n B A) B) B /\
  eqm n n (fm n A B) (ft (fm n A B)) /\ eqm n n (fm n B A) (ft (fm n B A)).
Lemma fm_eq A A' B B' : eqm n n A A' -> eqm n n B B' -> eqm n n (fm n A B) (fm n A' B').
Proof. intros H1 H2 i j Hi Hj. apply fm_ext; intros; auto. Qed.
Lemma eqm_tr A B C : eqm n n A B -> eqm n n B C -> eqm n n A C.
Proof. intros H1 H2 i j Hi Hj. rewrite H1 by auto. apply H2; auto. Qed.
Lemma eqm_s A B : eqm n n A B -> eqm n n B A.
Proof. intros H i j Hi Hj. symmetry. apply H; auto. Qed.
Lemma eqm_r A : eqm n n A A. Proof. intros i j _ _. reflexivity. Qed.
Lemma eqm_a A B C : eqm n n (fm n (fm n A B) C) (fm n A (fm n B C)).
Proof. intros i j _ _. apply fm_assoc. Qed.
Lemma eqm_t A B : eqm n n (ft (fm n A B)) (fm n (ft B) (ft A)).
Proof. intros i j _ _. unfold ft at 1. rewrite fm_tr. reflexivity. Qed.
Lemma eqm_ft A B : eqm n n A B -> eqm n n (ft A) (ft B).
Proof. intros H i j Hi Hj. apply H; auto. Qed.
Lemma pen_left A B C : pen A B -> pen A C -> eqm n n (fm n A B) (fm n A C).
Proof.
  intros (B1 & _ & B3 & _) (C1 & _ & C3 & _).
  assert (E : eqm n n (fm n A B) (fm n (fm n A C) (fm n A B))).
  { eapply eqm_tr; [apply (fm_eq A (fm n (fm n A C) A) B B); [apply eqm_s, C1|apply eqm_r]|]. apply eqm_a. }
  eapply eqm_tr; [exact B3|]. eapply eqm_tr; [apply (eqm_ft _ _ E)|]. eapply eqm_tr; [apply eqm_t|].
  eapply eqm_tr; [apply fm_eq; [apply eqm_s, B3|apply eqm_s, C3]|].
  eapply eqm_tr; [apply eqm_s, eqm_a|]. apply fm_eq; [exact B1|apply eqm_r].
Qed.
Lemma pen_right A B C : pen A B -> pen A C -> eqm n n (fm n B A) (fm n C A).
Proof.
  intros (B1 & _ & _ & B4) (C1 & _ & _ & C4).
  assert (E : eqm n n (fm n B A) (fm n (fm n B A) (fm n C A))).
  { eapply eqm_tr; [apply (fm_eq B B A (fm n (fm n A C) A)); [apply eqm_r|apply eqm_s, C1]|].
    eapply eqm_tr; [apply fm_eq; [apply eqm_r|apply eqm_a]|]. apply eqm_s, eqm_a. }
  eapply eqm_tr; [exact B4|]. eapply eqm_tr; [apply (eqm_ft _ _ E)|]. eapply eqm_tr; [apply eqm_t|].
  eapply eqm_tr; [apply fm_eq; [apply eqm_s, C4|apply eqm_s, B4]|].
  eapply eqm_tr; [apply eqm_a|]. apply fm_eq; [apply eqm_r|]. eapply eqm_tr; [apply eqm_s, eqm_a|]. exact B1.
Qed.
Lemma pen_unique A B C : pen A B -> pen A C -> eqm n n B C.
Proof.
  intros HB HC. pose proof (pen_left _ _ _ HB HC) as X. pose proof (pen_right _ _ _ HB HC) as Y. destruct HB as (_ & B2 & _), HC as (_ & C2 & _).
  eapply eqm_tr; [apply eqm_s, B2|]. eapply eqm_tr; [apply eqm_a|]. eapply eqm_tr; [apply fm_eq; [apply eqm_r|exact X]|].
  eapply eqm_tr; [apply eqm_s, eqm_a|]. eapply eqm_tr; [apply fm_eq; [exact Y|apply eqm_r]|]. exact C2.
Qed.
Lemma pen_sym A B : eqm n n A (ft A) -> pen A B -> eqm n n B (ft B).
Proof.
  intros HS HB. apply (pen_unique A); auto. destruct HB as (B1 & B2 & B3 & B4).
  assert (X : eqm n n (fm n A (ft B)) (ft (fm n B A))) by (eapply eqm_tr; [apply fm_eq; [exact HS|apply eqm_r]|apply eqm_s, eqm_t]).
  assert (Y : eqm n n (fm n (ft B) A) (ft (fm n A B))) by (eapply eqm_tr; [apply fm_eq; [apply eqm_r|exact HS]|apply eqm_s, eqm_t]).
  split; [|split; [|split]].
  - eapply eqm_tr; [apply fm_eq; [exact X|exact HS]|]. eapply eqm_tr; [apply eqm_s, eqm_t|]. eapply eqm_tr; [|apply eqm_s, HS]. apply eqm_ft.
    eapply eqm_tr; [apply eqm_s, eqm_a|exact B1].
  - eapply eqm_tr; [apply fm_eq; [exact Y|apply eqm_r]|]. eapply eqm_tr; [apply eqm_s, eqm_t|]. apply eqm_ft.
    eapply eqm_tr; [apply eqm_s, eqm_a|exact B2].
  - eapply eqm_tr; [exact X|]. eapply eqm_tr; [apply eqm_s, B4|]. eapply eqm_tr; [|apply (eqm_ft _ _ (eqm_s _ _ X))]. apply eqm_r.
  - eapply eqm_tr; [exact Y|]. eapply eqm_tr; [apply eqm_s, B3|]. eapply eqm_tr; [|apply (eqm_ft _ _ (eqm_s _ _ Y))]. apply eqm_r.
Qed.
End Penrose.
Lemma penrose_pen {S : Scal} {L : ScalLaws S} n M X : penrose n M X -> pen n (ent M) (ent X).
Proof.
  intros H. repeat split; intros i j Hi Hj; destruct (H i j Hi Hj) as (H1 & H2 & H3 & H4).
  - etransitivity; [|exact H1]. rewrite total_ksum. apply ksum_ext. intros k Hk. f_equal. symmetry. apply total_ksum.
  - etransitivity; [|exact H2]. rewrite total_ksum. apply ksum_ext. intros k Hk. f_equal. symmetry. apply total_ksum.
  - rewrite !total_ksum in H3. exact H3.
  - rewrite !total_ksum in H4. exact H4.
Qed.

Section OaApi.
Context {S : Scal} {L : ScalLaws S} {PL : PosLaws S} {ES : EqSound S}.
Local Open Scope k_scope.
Add Field kf2 : (@kfield S L).
Variable solve : list (list K) -> list K -> list K.
Variable pinv : list (list K) -> K -> list (list K) * bool.

Lemma even_lam ab l e : tree_ok ab -> proper ab -> solver_ok solve (ab_dof ab) (mat (ab_dof ab) (ab_dof ab) (Av ab)) ->
  penrose 6 (linvv solve ab (Jl ab l)) (fst (pinv (linvv solve ab (Jl ab l)) e)) -> even6 (lamv solve pinv ab (Jl ab l) e).
Proof.
  intros T P SO H. apply penrose_pen in H. unfold even6. intros i k Hi Hk.
  refine (pen_sym 6 _ _ _ H i k Hi Hk). intros a b Ha Hb. unfold ft, linvv, lmul. rewrite !Jl_length, !ent_mat by auto.
  rewrite (ksum_ext _ _ (fun j => coef (nth a (Jl ab l) nil) j * coef (solve (mat (ab_dof ab) (ab_dof ab) (Av ab)) (nth b (Jl ab l) nil)) j))
    by (intros j Hj; rewrite (xv_ent solve ab l) by auto; reflexivity).
  rewrite <- (dual solve ab T P SO (nth a (Jl ab l) nil) (nth b (Jl ab l) nil)) by (apply row_len; auto).
  apply ksum_ext. intros j Hj. rewrite (xv_ent solve ab l) by auto. unfold ent, coef. ring.
Qed.

Lemma reached_noload h ab : reached solve pinv h ab -> forallb (fun o => negb (load_op o)) h = true -> noload ab.
Proof.
  intros (name & mem & R) H. assert (N : noload (body_new name mem)) by (intros k; reflexivity). revert R H N. generalize (body_new name mem).
  induction h as [|o h IH]; cbn; intros a E H N; [inversion E; subst; auto|]. apply andb_true_iff in H. destruct H as [H1 H2]. apply negb_true_iff in H1.
  destruct (step solve pinv o a) as [a1|] eqn:Q; [|discriminate]. eapply IH; eauto. eapply noload_step; eauto.
Qed.
Section At.
Variables (h : list op) (ab : body) (l : Z) (A : list (list K)) (cols : list motion).
Hypothesis R : reached solve pinv h ab.
Hypothesis B : base_fixed false h = true.
Hypothesis U : unmixed h = true.
Hypothesis P : proper ab.
Hypothesis AR : articulable ab.
Hypothesis NL : forall k, ab_loads ab k = None.
Hypothesis HA : outcome (ask solve pinv QInertia ab) = Ok (AMat A).
Hypothesis SO : solver_ok solve (ab_dof ab) A.
Hypothesis HJ : outcome (ask solve pinv (QJac l v3zero) ab) = Ok (AMots cols).
Let AC : AddComm S := laws_comm.
Let J := task_rows None cols.
Lemma at_wfa : tree_ok ab /\ wfa ab /\ woa pinv true ab.
Proof. destruct (reached_wfa solve pinv h ab R B U) as [T W]. split; [auto|]. split; auto. eapply reached_woa; eauto. Qed.
Lemma at_J : exists m, idx (ab_dof ab) l = Some m /\ J = Jl ab m.
Proof.
  destruct at_wfa as (T & W & _). apply wfa_split in W. destruct W as [W _]. cbn [ask] in HJ. rewrite outcome_wrap in HJ.
  destruct (out_Jac ab T W l v3zero) as (o' & Ho & E). rewrite E in HJ.
  assert (o' = v3zero) by (destruct Ho as [?|[_ ?]]; [auto|apply v3eqb_sound; auto]). subst o'.
  destruct (idx _ _) as [m|]; [|discriminate]. exists m. split; auto. inversion HJ. unfold J, Jl. rewrite <- H0. symmetry. apply (rows_eq None).
Qed.
Lemma at_A : A = mat (ab_dof ab) (ab_dof ab) (Av ab).
Proof.
  destruct at_wfa as (T & W & _). apply wfa_split in W. destruct W as [W _]. cbn [ask] in HA. rewrite outcome_wrap, (out_Inertia ab T W) in HA. cbn in HA. inversion HA. reflexivity.
Qed.
Lemma at_sh m : sh ab (Jl ab m) = true.
Proof.
  unfold sh. apply (sized_shape 6). split; [reflexivity|]. unfold Jl, jac_rows. repeat constructor; rewrite map_length; apply vec_length.
Qed.
Lemma c59_linv off : exists M, outcome (ask solve pinv (QaLinv l off) ab) = Ok (AMat M) /\ outcome (ask solve pinv (QoLinv J) ab) = Ok (AMat M).
Proof.
  destruct at_wfa as (T & W & O). destruct at_J as (m & E & ->). rewrite at_A in SO. pose proof (idx_lt _ _ _ E) as Hm.
  exists (linv_aba ab m). split; [eapply out_aLinv; eauto|].
  pose proof (reached_wop solve pinv None h ab R B (oone_none h)) as Op. apply wfa_split in W. destruct W as [W _].
  cbn [ask]. rewrite outcome_wrap, (out_oLinv solve pinv ab T W Op), at_sh. cbn [bind]. rewrite (linv_eq solve ab T P AR SO) by auto. reflexivity.
Qed.
Lemma c59_lam off eps : exists M, outcome (ask solve pinv (QaLambda l off eps) ab) = Ok (AMat M) /\ outcome (ask solve pinv (QoLambda J eps) ab) = Ok (AMat M).
Proof.
  destruct at_wfa as (T & W & O). destruct at_J as (m & E & ->). rewrite at_A in SO. pose proof (idx_lt _ _ _ E) as Hm.
  exists (fst (pinv (linv_aba ab m) eps)). split; [eapply out_aLam; eauto|].
  pose proof (reached_wop solve pinv None h ab R B (oone_none h)) as Op. apply wfa_split in W. destruct W as [W _].
  cbn [ask]. rewrite outcome_wrap, (out_oLam solve pinv ab T W Op), at_sh. cbn [bind]. unfold lamv. rewrite (linv_eq solve ab T P AR SO) by auto. reflexivity.
Qed.
Lemma c59_cc off e Li : one_threshold e h -> outcome (ask solve pinv (QoLinv J) ab) = Ok (AMat Li) ->
  penrose 6 Li (fst (pinv Li e)) -> penrose 6 Li (fst (pinv Li 0)) ->
  exists x, outcome (ask solve pinv (QaCC l off e) ab) = Ok (AVec x) /\ outcome (ask solve pinv (QoCC J l e) ab) = Ok (AVec x).
Proof.
  intros OT HL X0 X1. destruct at_wfa as (T & W & O). destruct at_J as (m & E & EJ). rewrite EJ in *. rewrite at_A in SO. pose proof (idx_lt _ _ _ E) as Hm.
  pose proof (reached_wop solve pinv None h ab R B (oone_none h)) as Op. pose proof (reached_wop solve pinv (Some e) h ab R B (oone_some _ _ OT)) as Oe.
  pose proof W as W'. apply wfa_split in W'. destruct W' as [W' _].
  cbn [ask] in HL. rewrite outcome_wrap, (out_oLinv solve pinv ab T W' Op), at_sh in HL. cbn in HL. inversion HL; subst Li.
  eexists. split; [eapply out_aCC; eauto|]. cbn [ask]. rewrite outcome_wrap, (out_oCC solve pinv ab T W' e Oe), at_sh, E, Jl_length. cbn [bind Nat.eqb]. rewrite (linv_eq solve ab T P AR SO) by auto.
  do 2 f_equal. symmetry. apply (cc_eq solve pinv ab T P AR SO); auto.
  - apply even_lam; auto.
  - intros i k Hi Hk. refine (pen_unique 6 _ _ _ (penrose_pen _ _ _ X0) (penrose_pen _ _ _ X1) i k Hi Hk).
Qed.
Lemma c59_grav off fe e Li mem : one_threshold e h -> outcome (ask solve pinv (QoLinv J) ab) = Ok (AMat Li) -> penrose 6 Li (fst (pinv Li e)) ->
  exists x G E, outcome (ask solve pinv (QaGrav l off fe e) (cold ab mem)) = Ok (AVec x) /\
    outcome (ask solve pinv (QoGrav J e) ab) = Ok (AVec G) /\ outcome (ask solve pinv (QoExt J fe e) ab) = Ok (AVec E) /\
    List.length x = 6%nat /\ forall i, (i < 6)%nat -> coef x i = coef G i - coef E i.
Proof.
  intros OT HL X0. destruct at_wfa as (T & W & O). destruct at_J as (m & E & EJ). rewrite EJ in *. rewrite at_A in SO. pose proof (idx_lt _ _ _ E) as Hm.
  pose proof (reached_wop solve pinv None h ab R B (oone_none h)) as Op. pose proof (reached_wop solve pinv (Some e) h ab R B (oone_some _ _ OT)) as Oe.
  pose proof W as W'. apply wfa_split in W'. destruct W' as [W' _].
  cbn [ask] in HL. rewrite outcome_wrap, (out_oLinv solve pinv ab T W' Op), at_sh in HL. cbn in HL. inversion HL; subst Li.
  assert (C : outcome (ask solve pinv (QaGrav l off fe e) (cold ab mem)) = Ok (AVec (lmulv 6 6 (fst (pinv (linv_aba ab m) e)) (m6 (grav_acc ab fe m))))).
  { apply (out_aGrav solve pinv (cold ab mem)); [apply tree_set_cache; auto|apply cold_wfa|apply cold_woa|exact NL|exact E|].
    intros c Q. inversion Q. reflexivity. }
  eexists _, _, _. split; [exact C|]. split; [cbn [ask]; rewrite outcome_wrap, (out_oGrav solve pinv ab T W' e Oe), at_sh; reflexivity|].
  split; [cbn [ask]; rewrite outcome_wrap, (out_oExt solve pinv ab T W' e Oe), at_sh; reflexivity|]. split; [apply vec_length|].
  intros i Hi. rewrite (linv_eq solve ab T P AR SO) by auto. apply (grav_eq solve pinv ab T P AR SO); auto. apply even_lam; auto.
Qed.
End At.
End OaApi.
