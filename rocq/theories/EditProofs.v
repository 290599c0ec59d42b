(** References into the cache, and links edited in place (C55, C57). *)
From Coq Require Import List Arith ZArith Bool Lia.
From Verif Require Import Scalar Base Spatial SpecGeo Joint Body Kin InvDyn FwdDyn Opspace OpspaceAba Deriv Sim Ops SpecCache
  TreeProofs CacheProofs CacheOps Refs SpecRefs RefProofs PyEdit SpecEdit.
Import ListNotations.

Section EditProofs.
Context {S : Scal}.
Local Open Scope k_scope.
Variable solve : list (list K) -> list K -> list K.
Variable pinv : list (list K) -> K -> list (list K) * bool.
Notation run := (run solve pinv).
Notation step := (step solve pinv).
Notation ask := (ask solve pinv).

(** ** References *)
Lemma c57_reference ab q ab1 x r : ask q ab = Ok (ab1, x) -> refers (ab_dof ab) q = Some r -> seen solve r ab1 = Ok x.
Proof. intros E H. exact (proj1 (asked_seen solve pinv _ _ _ _ _ E H)). Qed.

Lemma kept_run r qs : forall ab c ab', (forall q, In q qs -> may_overwrite q r = false) -> ab_cache ab = Some c -> lit r c = true ->
  run (map OAsk qs) ab = Some ab' -> seen solve r ab' = seen solve r ab.
Proof.
  induction qs as [|q qs IH]; intros ab c ab' M C L E.
  - inversion E; reflexivity.
  - cbn [map Ops.run] in E. destruct (step (OAsk q) ab) as [a1|] eqn:Q; [|discriminate].
    destruct (ask_keeps solve pinv r q ab a1 c (M q (or_introl eq_refl)) C L Q) as (X & c1 & C1 & L1 & _).
    rewrite <- X. eapply IH; eauto. intros k Hk. apply M. right. exact Hk.
Qed.
Lemma c57_kept ab q ab1 x r qs ab2 : ask q ab = Ok (ab1, x) -> refers (ab_dof ab) q = Some r ->
  (forall q', In q' qs -> may_overwrite q' r = false) -> run (map OAsk qs) ab1 = Some ab2 -> seen solve r ab2 = Ok x.
Proof.
  intros E H M R. destruct (asked_seen solve pinv _ _ _ _ _ E H) as (X & c1 & C1 & L & _).
  rewrite <- X. eapply kept_run; eauto.
Qed.
Lemma c57_setters r os : forall ab ab', (forall o, In o os -> setter o = true) -> run os ab = Some ab' ->
  seen solve r ab' = seen solve r ab.
Proof.
  assert (X : forall o ab ab', setter o = true -> step o ab = Some ab' -> seen solve r ab' = seen solve r ab).
  { intros o ab ab' M E. destruct o; try discriminate M; cbn [Ops.step] in E.
    - unfold set_q in E. destruct (negb _); [inversion E; reflexivity|]. destruct (negb _); [discriminate|].
      destruct (veqb _ _); inversion E; subst; [reflexivity|]. unfold seen. cbn [ab_cache ab_dof]. destruct (ab_cache ab); [|reflexivity]. destruct r; reflexivity.
    - unfold set_dq in E. destruct (negb _); [inversion E; reflexivity|]. destruct (negb _); [discriminate|].
      destruct (veqb _ _); inversion E; subst; [reflexivity|]. unfold seen. cbn [ab_cache ab_dof]. destruct (ab_cache ab); [|reflexivity]. destruct r; reflexivity.
    - inversion E; subst. unfold seen. cbn [ab_cache ab_dof]. destruct (ab_cache ab); [|reflexivity]. destruct r; reflexivity.
    - unfold add_load, set_loads in E. destruct (ab_cache ab) eqn:C; inversion E; subst. unfold seen. rewrite C. cbn [ab_cache ab_dof]. destruct r; reflexivity.
    - unfold replace_load, set_loads in E. destruct (ab_cache ab) eqn:C; inversion E; subst. unfold seen. rewrite C. cbn [ab_cache ab_dof]. destruct r; reflexivity.
    - unfold clear_load, set_loads in E. destruct (ab_cache ab) eqn:C; inversion E; subst. unfold seen. rewrite C. cbn [ab_cache ab_dof]. destruct r; reflexivity.
    - inversion E; subst. reflexivity.
    - unfold set_inertia_base in E. destruct (klt _ _); inversion E; subst; reflexivity. }
  induction os as [|o os IH]; intros ab ab' M E.
  - inversion E; reflexivity.
  - cbn [Ops.run] in E. destruct (step o ab) as [a1|] eqn:Q; [|discriminate].
    rewrite (IH a1 ab'); auto. + apply (X o); auto. apply M; left; auto. + intros k Hk. apply M; right; auto.
Qed.

(** ** Edits *)
Lemma replace_nth_same {A} (l : list A) k d : k < List.length l -> replace_nth k (nth k l d) l = l.
Proof. revert k. induction l as [|a l IH]; intros [|k] H; cbn in *; auto; try lia. rewrite IH by lia. reflexivity. Qed.
Lemma edit_rb_same e rb rb' u : edit_rb e rb = Ret rb' u \/ edit_rb e rb = Exn rb' -> rb_id rb' = rb_id rb /\ rb_parent rb' = rb_parent rb.
Proof.
  destruct e; cbn [edit_rb]; unfold rb_set_inertia, on_inertia, on_joint;
    repeat match goal with |- context [klt ?a ?b] => destruct (klt a b) end;
    repeat match goal with |- context [match ?a with Ok _ => _ | Throw => _ | UB => _ end] => destruct a end;
    repeat match goal with |- context [match ?a with Ret _ _ => _ | Exn _ => _ | Bad => _ end] => destruct a end;
    intros [E|E]; inversion E; subst; split; reflexivity.
Qed.
Lemma edit_frame i e ab ab' : settled (edit_link i e ab) = Some ab' ->
  ab' = ab \/ exists k rb, k < List.length (ab_rbs ab) /\ ab' = set_rbs (replace_nth k rb (ab_rbs ab)) ab /\
    rb_id rb = rb_id (nth k (ab_rbs ab) rb_default) /\ rb_parent rb = rb_parent (nth k (ab_rbs ab) rb_default).
Proof.
  unfold edit_link. destruct (idx _ _) as [k|] eqn:Q; [|intros E; inversion E; auto].
  apply idx_spec in Q. destruct Q as [Q _].
  destruct (edit_rb e (nth k (ab_rbs ab) rb_default)) as [rb u|rb|] eqn:E; intros H; inversion H; subst; right; exists k, rb;
    (split; [exact Q|]; split; [reflexivity|]; apply (edit_rb_same e _ _ tt)); [left; destruct u|right]; exact E.
Qed.
Lemma nth_replace {A} (l : list A) k x d i : k < List.length l -> nth i (replace_nth k x l) d = if Nat.eqb i k then x else nth i l d.
Proof.
  revert k i. induction l as [|a l IH]; intros k i H; [inversion H|]. destruct k as [|k]; cbn.
  - destruct i; reflexivity.
  - destruct i; [reflexivity|]. cbn. apply IH. cbn in H. lia.
Qed.
Lemma length_replace {A} (l : list A) k x : List.length (replace_nth k x l) = List.length l.
Proof. revert k. induction l as [|a l IH]; intros [|k]; cbn; auto. Qed.
Lemma tree_edit i e ab ab' : tree_ok ab -> settled (edit_link i e ab) = Some ab' -> tree_ok ab'.
Proof.
  intros T E. destruct (edit_frame _ _ _ _ E) as [->|(k & rb & Hk & -> & Hi & Hp)]; auto.
  assert (X : forall j, rb_id (rb_at (set_rbs (replace_nth k rb (ab_rbs ab)) ab) j) = rb_id (rb_at ab j) /\
                        rb_parent (rb_at (set_rbs (replace_nth k rb (ab_rbs ab)) ab) j) = rb_parent (rb_at ab j)).
  { intros j. unfold rb_at. cbn [ab_rbs set_rbs]. rewrite nth_replace by auto. destruct (Nat.eqb_spec j k); subst; auto. }
  assert (Y : forall j, par (set_rbs (replace_nth k rb (ab_rbs ab)) ab) j = par ab j).
  { intros j. unfold par. rewrite (proj2 (X j)). reflexivity. }
  destruct T. constructor; cbn [ab_dof ab_rbs ab_q ab_dq ab_anc ab_sub ab_cache set_rbs] in *; auto.
  - rewrite length_replace. auto.
  - intros j Hj. rewrite (proj1 (X j)). auto.
  - intros j Hj. rewrite (proj2 (X j)). auto.
  - intros j Hj. rewrite Y. apply tk_anc_at; auto.
Qed.
Lemma edit_cache i e ab ab' : settled (edit_link i e ab) = Some ab' ->
  ab_cache ab' = ab_cache ab /\ ab_dof ab' = ab_dof ab /\ ab_q ab' = ab_q ab /\ ab_dq ab' = ab_dq ab.
Proof. intros E. destruct (edit_frame _ _ _ _ E) as [->|(k & rb & Hk & -> & Hi & Hp)]; auto. Qed.
Lemma P_pstep {AC : AddComm S} b o ab ab' h : tree_ok ab -> P b ab -> edits_first b (o :: h) = true ->
  pstep solve pinv o ab = Some ab' -> tree_ok ab' /\ exists b', P b' ab' /\ edits_first b' h = true.
Proof.
  intros T H Hb E. destruct o as [o|i e]; cbn [pstep] in E.
  - split; [eapply tree_step; eauto|]. exists (b || asks o).
    assert (X : negb (b && moves_base o) = true /\ edits_first (b || asks o) h = true).
    { destruct o; cbn in *; rewrite ?andb_false_r, ?orb_false_r, ?orb_true_r in *; auto.
      apply andb_true_iff in Hb. destruct Hb. destruct b; auto; discriminate. }
    split; [|apply X]. eapply P_step; eauto. apply X.
  - split; [eapply tree_edit; eauto|]. cbn in Hb. apply andb_true_iff in Hb. destruct Hb as [B Hb]. destruct b; [discriminate|].
    exists false. split; [|exact Hb]. destruct (edit_cache _ _ _ _ E) as (C & _). destruct H as (c & Ec & V). exists c. split; [congruence|]. exact V.
Qed.
Lemma P_prun {AC : AddComm S} h : forall b ab ab', tree_ok ab -> P b ab -> edits_first b h = true ->
  prun solve pinv h ab = Some ab' -> tree_ok ab' /\ wfc ab'.
Proof.
  induction h as [|o h IH]; intros b ab ab' T H Hb E.
  - inversion E; subst. split; auto. eapply P_wfc; eauto.
  - cbn [prun] in E. destruct (pstep solve pinv o ab) as [a1|] eqn:Q; [|discriminate].
    destruct (P_pstep b o ab a1 h T H Hb Q) as (T1 & b' & H1 & Hb1). eapply IH; eauto.
Qed.
Lemma tree_prun h : forall ab ab', tree_ok ab -> prun solve pinv h ab = Some ab' -> tree_ok ab'.
Proof.
  induction h as [|o h IH]; intros ab ab' T E.
  - inversion E; subst. auto.
  - cbn [prun] in E. destruct (pstep solve pinv o ab) as [a1|] eqn:Q; [|discriminate]. eapply IH; [|exact E].
    destruct o; cbn in Q; [eapply tree_step; eauto|eapply tree_edit; eauto].
Qed.

(** Programs that edit first. *)
Lemma preached_wfc {AC : AddComm S} h ab : preached solve pinv h ab -> edits_first false h = true -> tree_ok ab /\ wfc ab.
Proof.
  intros (name & mem & R) Hb. eapply (P_prun h false); [apply (tree_new name mem)| |exact Hb|exact R].
  exists (all_clear mem). split; [reflexivity|]. intros. apply inv_all_clear.
Qed.
(** Any program, then q is changed. *)
Lemma repaired_wfc {AC : AddComm S} h ab q ab1 h2 ab2 : preached solve pinv h ab -> set_q q ab = Ret ab1 tt ->
  veqb (ab_q ab) q = false -> prun solve pinv h2 ab1 = Some ab2 -> edits_first false h2 = true -> tree_ok ab2 /\ wfc ab2.
Proof.
  intros (name & mem & R) E N R2 Hb. assert (T : tree_ok ab) by (eapply tree_prun; [apply (tree_new name mem)|exact R]).
  eapply (P_prun h2 false); [eapply tree_set_q; eauto| |exact Hb|exact R2].
  unfold set_q in E. destruct (negb _); [discriminate|]. destruct (negb _); [discriminate|]. rewrite N in E. inversion E; subst.
  destruct (tk_cache _ T) as [c C]. unfold P. cbn [ab_cache]. rewrite C. eexists. split; [reflexivity|]. intros ab'. apply (inv_all_clear ab' c).
Qed.
Section Fresh.
Context {AC : AddComm S}.
Lemma c55_first_pose h ab mem q : preached solve pinv h ab -> edits_first false h = true ->
  pose_query q || dynamics_query q = true -> outcome (ask q ab) = outcome (ask q (cold ab mem)).
Proof.
  intros R Hb Q. destruct (preached_wfc h ab R Hb) as [T W]. apply orb_true_iff in Q.
  destruct Q; [apply pose_fresh|apply dynamics_fresh]; auto.
Qed.
Lemma c55_first_jac {E : EqSound S} h ab mem q : preached solve pinv h ab -> edits_first false h = true ->
  jacobian_query q = true -> outcome (ask q ab) = outcome (ask q (cold ab mem)).
Proof.
  intros R Hb Q. destruct (preached_wfc h ab R Hb) as [T W].
  destruct (jacobian_fresh solve pinv ab q mem T W Q) as (o' & H & X).
  assert (o' = offset_of q) by (destruct H as [H|H]; [exact H|apply v3eqb_sound; exact H]). subst.
  rewrite X. assert (with_offset q (offset_of q) = q) as -> by (destruct q; try discriminate Q; reflexivity). reflexivity.
Qed.
Lemma c55_set_q_pose h ab q ab1 h2 ab2 mem qy : preached solve pinv h ab -> set_q q ab = Ret ab1 tt ->
  veqb (ab_q ab) q = false -> prun solve pinv h2 ab1 = Some ab2 -> edits_first false h2 = true ->
  pose_query qy || dynamics_query qy = true -> outcome (ask qy ab2) = outcome (ask qy (cold ab2 mem)).
Proof.
  intros R E N R2 Hb Q. destruct (repaired_wfc h ab q ab1 h2 ab2 R E N R2 Hb) as [T W]. apply orb_true_iff in Q.
  destruct Q; [apply pose_fresh|apply dynamics_fresh]; auto.
Qed.
Lemma c55_set_q_jac {EQ : EqSound S} h ab q ab1 h2 ab2 mem qy : preached solve pinv h ab -> set_q q ab = Ret ab1 tt ->
  veqb (ab_q ab) q = false -> prun solve pinv h2 ab1 = Some ab2 -> edits_first false h2 = true ->
  jacobian_query qy = true -> outcome (ask qy ab2) = outcome (ask qy (cold ab2 mem)).
Proof.
  intros R E N R2 Hb Q. destruct (repaired_wfc h ab q ab1 h2 ab2 R E N R2 Hb) as [T W].
  destruct (jacobian_fresh solve pinv ab2 qy mem T W Q) as (o' & H & X).
  assert (o' = offset_of qy) by (destruct H as [H|H]; [exact H|apply v3eqb_sound; exact H]). subst.
  rewrite X. assert (with_offset qy (offset_of qy) = qy) as -> by (destruct qy; try discriminate Q; reflexivity). reflexivity.
Qed.
End Fresh.

(** ** Nothing else repairs *)
Lemma remembered_refers n q : remembered q = true -> forall r, refers n q = Some r -> forall q', may_overwrite q' r = false.
Proof.
  intros Q r H q'. destruct q; try discriminate Q; cbn in H; try (inversion H; reflexivity);
    destruct (idx n _); inversion H; reflexivity.
Qed.
Lemma asked_refers q ab ab1 x : remembered q = true -> ask q ab = Ok (ab1, x) -> exists r, refers (ab_dof ab) q = Some r.
Proof.
  intros Q E. destruct q; try discriminate Q; cbn [refers]; eauto; cbn [Ops.ask] in E; apply wrap_inv in E; destruct E as (y & E & _).
  - unfold q_T_to_parent, on_cache in E. destruct (ab_cache ab); [|discriminate]. destruct (idx _ _); [cbn; eauto|discriminate].
  - unfold q_T_to_world, on_cache in E. destruct (ab_cache ab); [|discriminate]. destruct (idx _ _); [cbn; eauto|discriminate].
  - unfold q_CompositeInertia, on_cache in E. destruct (ab_cache ab); [|discriminate]. destruct (idx _ _); [cbn; eauto|discriminate].
Qed.
Definition fits (q : query) (n : nat) : Prop := match q with QAinv b => List.length b = n | _ => True end.
Lemma asked_fits q ab ab1 x : ask q ab = Ok (ab1, x) -> fits q (ab_dof ab).
Proof.
  intros E. destruct q; cbn; auto. cbn [Ops.ask] in E. apply wrap_inv in E. destruct E as (y & E & _).
  unfold q_InertiaInverse_solve in E. destruct (Nat.eqb_spec (List.length b) (ab_dof ab)); [auto|discriminate].
Qed.
(** A lit answer is returned as it is. *)
Lemma lit_answer q r ab c : remembered q = true -> refers (ab_dof ab) q = Some r -> ab_cache ab = Some c -> lit r c = true ->
  fits q (ab_dof ab) -> outcome (ask q ab) = seen solve r ab.
Proof.
  intros Q H C L F. unfold seen. rewrite C. destruct q; try discriminate Q; cbn [refers] in H; cbn [Ops.ask]; rewrite outcome_wrap.
  - unfold q_T_to_parent. rewrite outcome_on_cache, C. destruct (idx _ _); inversion H; subst. cbn in L. unfold ensure_Tp. rewrite L. reflexivity.
  - unfold q_T_to_world. rewrite outcome_on_cache, C. destruct (idx _ _); inversion H; subst. cbn in L. unfold ensure_Tw. rewrite L. reflexivity.
  - unfold q_CentrifugalCoriolis. rewrite outcome_on_cache, C. inversion H; subst. cbn in L. unfold ensure_cc. rewrite L. reflexivity.
  - unfold q_Gravity. rewrite outcome_on_cache, C. inversion H; subst. cbn in L. unfold ensure_grav. rewrite L. reflexivity.
  - unfold q_Inertia. rewrite outcome_on_cache, C. inversion H; subst. cbn in L. unfold ensure_crba. rewrite L. reflexivity.
  - unfold q_CompositeInertia. rewrite outcome_on_cache, C. destruct (idx _ _); inversion H; subst. cbn in L. unfold ensure_crba. rewrite L. reflexivity.
  - cbn in F. unfold q_InertiaInverse_solve. rewrite F, Nat.eqb_refl. rewrite outcome_on_cache, C. inversion H; subst. cbn in L. unfold ensure_crba_inv. rewrite L. reflexivity.
  - unfold q_InertiaInverseAba. rewrite outcome_on_cache, C. inversion H; subst. cbn in L. unfold ensure_Ainv. rewrite L. reflexivity.
Qed.
Lemma c55_stale q ab ab1 x h ab2 : remembered q = true -> ask q ab = Ok (ab1, x) ->
  (forall o, In o h -> forgets_nothing (ab_q ab) (ab_dq ab) o = true) -> prun solve pinv h ab1 = Some ab2 ->
  outcome (ask q ab2) = Ok x.
Proof.
  intros Q E M R. destruct (asked_refers _ _ _ _ Q E) as [r H]. pose proof (asked_fits _ _ _ _ E) as F.
  destruct (asked_seen solve pinv _ _ _ _ _ E H) as (X & c1 & C1 & L & D).
  assert (G : forall h a c, ab_cache a = Some c -> lit r c = true -> seen solve r a = Ok x -> ab_dof a = ab_dof ab ->
      ab_q a = ab_q ab -> ab_dq a = ab_dq ab -> (forall o, In o h -> forgets_nothing (ab_q ab) (ab_dq ab) o = true) ->
      prun solve pinv h a = Some ab2 -> exists c2, ab_cache ab2 = Some c2 /\ lit r c2 = true /\ seen solve r ab2 = Ok x /\ ab_dof ab2 = ab_dof ab).
  { clear - Q H. induction h as [|o h IH]; intros a c C L X D Eq Edq M R.
    - inversion R; subst. exists c. auto.
    - cbn [prun] in R. destruct (pstep solve pinv o a) as [a1|] eqn:E; [|discriminate].
      pose proof (M o (or_introl eq_refl)) as Mo. assert (M' : forall o, In o h -> forgets_nothing (ab_q ab) (ab_dq ab) o = true) by (intros k Hk; apply M; right; exact Hk).
      destruct o as [o|i e]; cbn [pstep] in E.
      + destruct o; try discriminate Mo; cbn [forgets_nothing] in Mo.
        * assert (a1 = a) as ->; [|exact (IH _ c C L X D Eq Edq M' R)]. cbn [Ops.step] in E. unfold set_q in E. rewrite Eq in E.
          destruct (negb _) in E; [inversion E; auto|]. destruct (negb _) in E; [discriminate|]. rewrite Mo in E. inversion E; auto.
        * assert (a1 = a) as ->; [|exact (IH _ c C L X D Eq Edq M' R)]. cbn [Ops.step] in E. unfold set_dq in E. rewrite Edq in E.
          destruct (negb _) in E; [inversion E; auto|]. destruct (negb _) in E; [discriminate|]. rewrite Mo in E. inversion E; auto.
        * cbn in E. inversion E; subst. refine (IH _ c _ L _ _ _ _ M' R); assumption.
        * destruct (ask_keeps solve pinv r q0 a a1 c (remembered_refers _ _ Q r H q0) C L E) as (Y & c' & C' & L' & SS).
          destruct SS as (S1 & S2 & S3 & S4 & S5). refine (IH a1 c' C' L' _ _ _ _ M' R); congruence.
      + destruct (edit_cache _ _ _ _ E) as (C' & D' & Q' & DQ').
        assert (Y : seen solve r a1 = seen solve r a) by (unfold seen; rewrite C', D'; reflexivity).
        refine (IH a1 c _ L _ _ _ _ M' R); congruence. }
  assert (SS : ab_q ab1 = ab_q ab /\ ab_dq ab1 = ab_dq ab).
  { apply ask_frame in E. destruct E as [c ->]. split; reflexivity. }
  destruct SS as [Sq Sdq]. destruct (G h ab1 c1 C1 L X D Sq Sdq M R) as (c2 & C2 & L2 & X2 & D2).
  rewrite <- X2. apply (lit_answer q r ab2 c2); auto; rewrite D2; auto.
Qed.
(** ** No check on the mass *)
Lemma c55_mass i k m J ab : idx (List.length (ab_rbs ab)) i = Some k ->
  (exists ab', edit_link i (EMass m) ab = Ret ab' tt /\ imass (rb_inertia (nth k (ab_rbs ab') rb_default)) = m) /\
  (klt (imass J) 0 = true -> exists ab', edit_link i (EInertia J) ab = Exn ab' /\ ab_rbs ab' = ab_rbs ab).
Proof.
  intros E. unfold edit_link. rewrite E. pose proof (proj1 (idx_spec _ _ _) E) as [Hk _]. split.
  - eexists. split; [reflexivity|]. cbn [ab_rbs set_rbs]. rewrite nth_replace, Nat.eqb_refl by auto. reflexivity.
  - intros N. cbn [edit_rb]. unfold rb_set_inertia. rewrite N. eexists. split; [reflexivity|]. cbn [ab_rbs set_rbs]. apply replace_nth_same. auto.
Qed.
Lemma c55_pickle J : unpickle_inertia (pickle_inertia J) = J <-> isym J.
Proof.
  destruct J as [m c [[a b d] [e f g] [u v w]]]. unfold isym, m3sym, unpickle_inertia, pickle_inertia, inertia_flat, I_com_flat, m3tr. cbn.
  split; intros H; inversion H; subst; reflexivity.
Qed.
End EditProofs.
