(** The simulator in Python (C69). *)
From Coq Require Import List Arith ZArith Bool String Lia.
From Verif Require Import Scalar Base Spatial Joint Body Kin InvDyn FwdDyn Opspace OpspaceAba Deriv Sim Ops Control Discrete Json App PyFuns PyApp Specs SpecCache
  TreeProofs CacheProofs CacheOps KinProofs ControlProofs AppProofs AppHold.
Import ListNotations.

Section Gen.
Context {S : Scal} {L : ScalLaws S} {ES : EqSound S}.
Local Instance comm69 : AddComm S := laws_comm.
Local Open Scope k_scope.
Variable solve : list (list K) -> list K -> list K.
Variable pinv : list (list K) -> K -> list (list K) * bool.
Variable near : m3 -> m3 -> m3.
Variable err : m3 -> m3 -> list K.

Lemma getattr_no names n : ~ In n names -> getattr names n = Throw.
Proof.
  intros H. unfold getattr. destruct (existsb _ names) eqn:E; [|reflexivity]. apply existsb_exists in E. destruct E as (x & I & X). apply String.eqb_eq in X. subst. contradiction.
Qed.
Lemma last_link n : (0 < n)%nat -> idx n (-1) = Some (n - 1)%nat.
Proof.
  intros H. unfold idx, norm_idx. cbn [Z.ltb Z.compare]. replace ((0 <=? -1 + Z.of_nat n)%Z) with true by (symmetry; apply Z.leb_le; lia). replace ((-1 + Z.of_nat n <? Z.of_nat n)%Z) with true by (symmetry; apply Z.ltb_lt; lia). cbn [andb]. f_equal. lia.
Qed.

Lemma step_throws names t s : tree_ok (a_ab s) -> wfc (a_ab s) -> (0 < ab_dof (a_ab s))%nat ->
  ~ In "near_quaternion"%string names \/ ~ In "orientation_error"%string names ->
  py_app_step solve pinv near err names t s = Throw.
Proof.
  intros T W D M. unfold py_app_step. set (ab := a_ab s) in *.
  destruct (t_pos t) as [gp|]; cbn [get_future bind]; [|reflexivity]. destruct (t_ori t) as [go|]; cbn [get_future bind]; [|reflexivity].
  destruct (t_joint t) as [gj|]; cbn [get_future bind]; [|reflexivity]. destruct (t_web t) as [i|]; cbn [get_future bind]; [|reflexivity].
  destruct (out_Jac ab T W (-1) ee_offset) as (o' & _ & X1). rewrite (last_link _ D) in X1. destruct (out_ok _ _ X1) as [a1 A1]. rewrite A1. cbn [bind].
  assert (Q1 : ask solve pinv (QJac (-1) ee_offset) ab = Ok (a1, AMots (vec (ab_dof ab) (jacv ab (ab_dof ab - 1)%nat o')))) by (cbn [ask]; rewrite A1; reflexivity).
  destruct (ask_frame solve pinv _ _ _ _ Q1) as [c1 E1]. pose proof (ask_inv solve pinv _ _ _ _ T W Q1) as W1. assert (T1 : tree_ok a1) by (subst a1; apply tree_set_cache; auto). assert (D1 : ab_dof a1 = ab_dof ab) by (subst a1; reflexivity).
  pose proof (out_Pos a1 (-1) ee_offset) as X2. rewrite (out_Tw a1 T1 W1), D1, (last_link _ D) in X2. cbn [bind] in X2. destruct (out_ok _ _ X2) as [a2 A2]. rewrite A2. cbn [bind].
  destruct M as [M|M]; [rewrite (getattr_no _ _ M); reflexivity|]. destruct (getattr names "near_quaternion") as [u| |] eqn:G; cbn [bind]; [|reflexivity|unfold getattr in G; destruct (existsb _ _); discriminate].
  assert (Q2 : ask solve pinv (QPos (-1) ee_offset) a1 = Ok (a2, AV3 (iso_app (twv a1 (ab_dof ab - 1)%nat) ee_offset))) by (cbn [ask]; rewrite A2; reflexivity).
  destruct (ask_frame solve pinv _ _ _ _ Q2) as [c2 E2]. pose proof (ask_inv solve pinv _ _ _ _ T1 W1 Q2) as W2. assert (T2 : tree_ok a2) by (subst a2; apply tree_set_cache; auto). assert (D2 : ab_dof a2 = ab_dof ab) by (rewrite E2; exact D1).
  pose proof (out_Ori a2 (-1)) as X3. rewrite (out_Tw a2 T2 W2), D2, (last_link _ D) in X3. cbn [bind] in X3. destruct (out_ok _ _ X3) as [a3 A3]. rewrite A3. cbn [bind].
  unfold pd_quat. rewrite (getattr_no _ _ M). reflexivity.
Qed.

Lemma c69_any names h ab home ts : reached solve pinv h ab -> base_fixed false h = true -> (0 < ab_dof ab)%nat -> List.length home = ab_dof ab ->
  ~ In "near_quaternion"%string names \/ ~ In "orientation_error"%string names ->
  py_app solve pinv near err names home ts ab = Ok [SentQ home; SentTau (repeat 0 (ab_dof ab))].
Proof.
  intros Re B D Hl M. destruct (c63_start solve pinv h ab home Re B Hl D) as (s & E & R1 & _ & Q & _). unfold py_app. rewrite E. cbn [bind].
  destruct (reached_wfc solve pinv _ (a_ab s) R1 ltac:(rewrite base_fixed_start; exact B)) as [T W].
  assert (Ds : ab_dof (a_ab s) = ab_dof ab). { rewrite <- Hl, <- Q. symmetry. apply T. }
  assert (X : py_app_loop solve pinv near err names ts s = Ok []). { destruct ts as [|t ts]; cbn [py_app_loop]; [reflexivity|]. rewrite step_throws; auto. lia. }
  rewrite X. cbn [bind map List.app]. rewrite Q, Ds. reflexivity.
Qed.
Lemma c69_nothing h ab home ts : reached solve pinv h ab -> base_fixed false h = true -> (0 < ab_dof ab)%nat -> List.length home = ab_dof ab ->
  py_app solve pinv near err opspace_names home ts ab = Ok [SentQ home; SentTau (repeat 0 (ab_dof ab))].
Proof. intros Re B D Hl. apply (c69_any _ h); auto. left. cbn. intros H. repeat (destruct H as [H|H]; [discriminate|]). exact H. Qed.
End Gen.
