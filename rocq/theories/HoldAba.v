(** Robots that stay where they are, integrated with the articulated-body algorithm (C58). *)
From Coq Require Import List Arith ZArith Bool Lia Field Reals Lra.
From Verif Require Import Scalar Base Spatial Joint Body Kin InvDyn FwdDyn Opspace OpspaceAba Deriv Sim Ops Control Instances Specs SpecCache SpecKin SpecDyn SpecAba SpecOps SpecReal SpecSim SpecFric SpecHold
  TreeProofs CacheProofs CacheOps KinProofs WorldProofs BigSum DynProofs DynApi AbaProofs AinvProofs AbaOps AbaCache AbaApi VelProofs DiscreteProofs DiscreteTravel DiscreteStill FirmProofs FricProofs FricAba HoldProofs.
Import ListNotations.

Section Aba.
Context {S : Scal} {L : ScalLaws S} {PL : PosLaws S}.
Add Field kf : (@kfield S L).
Local Open Scope k_scope.
Variable solve : list (list K) -> list K -> list K.
Variable pinv : list (list K) -> K -> list (list K) * bool.
#[local] Instance comm_holda : AddComm S := laws_comm.

Lemma aba_kept ab tau fe o x : tree_ok ab -> wfa ab -> List.length tau = ab_dof ab ->
  outcome (ask solve pinv (QAba tau fe o) ab) = Ok (AVec x) -> (forall i, (i < ab_dof ab)%nat -> coef x i = 0) ->
  forall a, keptx ab waba a -> exists a' y, sim_fd solve true tau fe o a = Ok (a', y) /\ keptx ab waba a' /\ forall i, (i < ab_dof ab)%nat -> qk y i = 0.
Proof.
  intros T W Lt E Z a [Ka Xa]. pose proof (kept_tree ab T a Ka) as Ta. destruct Ka as (c & Ea & Wa).
  assert (Fa : wfa a) by (apply wfa_split; auto).
  assert (Da : ab_dof a = ab_dof ab) by (subst; reflexivity).
  pose proof (out_aba solve pinv a tau fe o Ta Fa ltac:(congruence)) as Y. rewrite (out_aba solve pinv ab tau fe o T W Lt) in E. inversion E; subst x; clear E.
  cbn [ask] in Y. rewrite outcome_wrap in Y. change (q_ForwardDynamicsAba tau fe o a) with (sim_fd solve true tau fe o a) in Y.
  destruct (sim_fd solve true tau fe o a) as [[a' y]| |] eqn:E; try discriminate. cbn in Y. inversion Y; subst y; clear Y.
  exists a'. eexists. split; [reflexivity|]. destruct (sim_fd_frame solve pinv true tau fe o a a' _ E) as [c' E'].
  pose proof (sim_fd_aba solve pinv true tau fe o a a' _ Ta Fa E) as F'. apply wfa_split in F'. destruct F' as [F1 F2]. split.
  - split; [|exact F2]. exists c'. split; [subst; reflexivity|exact F1].
  - intros i Hi. specialize (Z i Hi). rewrite coef_vec in Z by auto. rewrite Da, qk_vec by auto. subst a. exact Z.
Qed.
Lemma c58_aba_zero ab tau fe o x steps : tree_ok ab -> wfa ab -> List.length tau = ab_dof ab -> at_rest ab ->
  outcome (ask solve pinv (QAba tau fe o) ab) = Ok (AVec x) -> (forall i, (i < ab_dof ab)%nat -> coef x i = 0) ->
  (forall io dt, In (io, dt) steps -> i_limits io = true -> in_limits ab) ->
  exists ab', integrated solve true tau fe o steps ab = Ok ab' /\ unmoved ab ab'.
Proof.
  intros T W Lt Z E Hx HL.
  assert (X : forall a, keptx ab waba a -> exists a', integrated solve true tau fe o steps a = Ok a' /\ keptx ab waba a').
  { induction steps as [|[io dt] steps IH]; intros a Ka; [cbn; eauto|]. cbn [integrated].
    destruct (integrate_keptx ab T Z (sim_fd solve true tau fe o) waba (fun io q dq a a' => waba_put io q dq a a') (aba_kept ab tau fe o x T W Lt E Hx) io dt a) as (a1 & -> & K1); auto.
    { apply (HL io dt). left; auto. }
    cbn [bind]. apply IH; auto. intros io' dt' H. apply (HL io' dt'). right; auto. }
  apply wfa_split in W. destruct W as [W1 W2]. destruct (X ab) as (a' & E' & (c & -> & _) & _); [split; [apply kept_self; auto|auto]|].
  eexists. split; [exact E'|]. exists c. auto.
Qed.

Lemma plus_zeros (x : K) : x = 0 + 0 + 0 + x.
Proof. ring. Qed.
Lemma c58_balance_aba h ab G E tau fe o steps : reached solve pinv h ab -> base_fixed false h = true -> unmixed h = true -> proper ab -> articulable ab ->
  (o_grav o = true -> rot (ab_Tbase ab) = m3id) ->
  outcome (ask solve pinv QGrav ab) = Ok (AVec G) -> outcome (ask solve pinv (QExt fe) ab) = Ok (AVec E) ->
  at_rest ab -> o_fric o = false -> List.length tau = ab_dof ab ->
  (forall i, (i < ab_dof ab)%nat -> coef tau i = coef E i + (if o_grav o then coef G i else 0)) ->
  (forall io dt, In (io, dt) steps -> i_limits io = true -> in_limits ab) ->
  exists ab', integrated solve true tau fe o steps ab = Ok ab' /\ unmoved ab ab'.
Proof.
  intros R B U P AR HB HG HE Z Ho Lt Ht HL. destruct (reached_wfa solve pinv h ab R B U) as [T W]. pose proof (wfa_wfc _ W) as WC.
  cbn [ask] in HG, HE. rewrite outcome_wrap, (out_Grav ab T WC) in HG. rewrite outcome_wrap, (out_Ext ab T WC) in HE. cbn in HG, HE. inversion HG; subst G. inversion HE; subst E. clear HG HE.
  destruct (c18 solve pinv h ab fe o R B U P AR Ho HB) as [_ C2].
  destruct (C2 (repeat 0 (ab_dof ab)) (repeat_length _ _)) as (tau' & E1 & E2).
  apply (c58_aba_zero ab tau fe o (repeat 0 (ab_dof ab))); auto.
  2: { intros i _. unfold coef. generalize (ab_dof ab). intros m. revert i. induction m as [|m IH]; intros [|i]; cbn; auto. }
  rewrite (out_ID_plain solve pinv ab T WC P fe o Ho) in E1 by apply repeat_length. inversion E1; subst tau'; clear E1.
  assert (Et : tau = vec (ab_dof ab) (id_base ab o (repeat 0 (ab_dof ab)) fe)); [|rewrite Et; exact E2].
  apply (list_coef_ext (ab_dof ab)); auto; [apply vec_length|]. intros i Hi. rewrite Ht, !coef_vec by auto. unfold id_base, mat_vec.
  rewrite (ksum_ext (ab_dof ab) _ (fun _ => 0)), ksum_zero, (Cv_still ab i T (pr_rigid _ P) Z Hi).
  - destruct (o_grav o), (o_cc o); ring.
  - auto.
  - intros j _. assert (Q : forall m k, qk (repeat 0 m) k = 0) by (intros m; induction m as [|m IH]; intros [|k]; cbn; auto; apply IH). cbv beta. rewrite Q. ring.
Qed.
End Aba.

Lemma c58_stiction_aba solve pinv h (ab : @body RScal) E tau fe (o : @id_opts RScal) steps :
  reached solve pinv h ab -> base_fixed false h = true -> unmixed h = true -> proper ab -> articulable ab ->
  outcome (ask solve pinv (QExt fe) ab) = Ok (AVec E) ->
  at_rest ab -> o_fric o = true -> (0 <= o_stic o)%R -> o_grav o = false -> List.length tau = ab_dof ab ->
  (forall i, i < ab_dof ab -> friction_coefficients (joint_i ab i) /\
     (Rabs (@coef RScal tau i - @coef RScal E i) <= jcoulomb (joint_i ab i) + jstiction (joint_i ab i))%R) ->
  (forall io dt, In (io, dt) steps -> i_limits io = true -> in_limits ab) ->
  exists ab', integrated solve true tau fe o steps ab = Ok ab' /\ unmoved ab ab'.
Proof.
  intros RH B U P AR HE Z Ho Hs Hg Lt Ht HL. pose proof (@laws_comm RScal RLaws) as AC. destruct (reached_wfa solve pinv h ab RH B U) as [T W]. pose proof (wfa_wfc _ W) as WC.
  cbn [ask] in HE. rewrite outcome_wrap, (out_Ext ab T WC) in HE. cbn in HE. inversion HE; subst E. clear HE.
  apply (@c58_aba_zero RScal RLaws solve pinv ab tau fe o (zeros (ab_dof ab))); auto.
  - apply (c60_sticks_aba solve pinv h ab tau fe o (vec (ab_dof ab) (id_base ab (frictionless o) (zeros (ab_dof ab)) fe)) RH B U P AR Ho Hs Hg Lt).
    + apply (@out_ID_plain RScal RLaws RPos solve pinv ab T WC P fe (frictionless o) eq_refl). apply repeat_length.
    + intros i Hi. destruct (Ht i Hi) as [F1 F2]. split; [exact F1|]. split; [exact (Z i Hi)|].
      rewrite (@coef_vec RScal) in F2 |- * by auto. replace (id_base ab (frictionless o) (zeros (ab_dof ab)) fe i) with (Extv ab fe i); [exact F2|].
      unfold id_base, mat_vec, frictionless. cbn [o_grav o_cc]. rewrite Hg, (@Cv_still RScal RLaws ab i T (pr_rigid _ P) Z Hi).
      rewrite (@ksum_ext RScal (ab_dof ab) _ (fun _ => @k0 RScal)), (@ksum_zero RScal RLaws).
      * destruct (o_cc o); exact (@plus_zeros RScal RLaws _).
      * auto.
      * intros j _. change (@qk RScal (zeros (ab_dof ab)) j) with (@coef RScal (zeros (ab_dof ab)) j). match goal with |- ?a = ?b => change (@eq R a b) end.
        replace (@coef RScal (zeros (ab_dof ab)) j) with 0%R; [apply Rmult_0_r|]. symmetry. apply (@qk_zero RScal (ab_dof ab) j).
  - intros i Hi. apply (@qk_zero RScal (ab_dof ab) i).
Qed.
