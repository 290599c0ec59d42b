(** Lemmas on inverse transforms (C71). *)
From Coq Require Import List Arith ZArith Bool Lia.
From Verif Require Import Scalar Base Spatial SpecGeo Joint Body Kin KinInv InvDyn FwdDyn Opspace OpspaceAba Deriv Sim Ops Specs SpecCache SpecKin SpecKinInv SpatialProofs TreeProofs CacheProofs CacheOps KinProofs.
Import ListNotations.

Section Inv.
Context {S : Scal} (solve : list (list K) -> list K -> list K) (pinv : list (list K) -> K -> list (list K) * bool).
Context {L : ScalLaws S}.

Lemma inv_undoes T : rigid T -> undoes (iso_inv T) T.
Proof.
  intros H p. split; rewrite <- iso_app_mul.
  - rewrite iso_inv_l by auto. apply iso_app_id.
  - rewrite iso_inv_r by auto. apply iso_app_id.
Qed.
Lemma out_inv (r : res (body * iso)) : outcome (bind r (fun '(ab, T) => Ok (ab, iso_inv T))) = bind (outcome r) (fun T => Ok (iso_inv T)).
Proof. destruct r as [[a x]| |]; reflexivity. Qed.
Lemma out_leaving {A} (ab : body) (r : res A) : outcome (leaving ab r) = r.
Proof. destruct r; reflexivity. Qed.

Lemma c71_world h ab z i : reached solve pinv h ab -> base_fixed false h = true -> rigid_robot ab -> idx (ab_dof ab) z = Some i ->
  exists T F, outcome (py_T_to_world z None ab) = Ok T /\ outcome (py_T_from_world z None ab) = Ok F /\ undoes F T.
Proof.
  intros R B H Q. assert (AC : AddComm S) by apply laws_comm. destruct (reached_wfc _ _ _ _ R B) as [T W].
  pose proof Q as Q'. apply idx_spec in Q'. destruct Q' as [Hi _].
  exists (twv ab i), (iso_inv (twv ab i)). cbn [py_T_to_world py_T_from_world]. unfold q_T_from_world. rewrite out_inv, out_Tw, Q by auto.
  split; [auto|]. split; [auto|]. apply inv_undoes, twv_rigid; auto.
Qed.
Lemma c71_parent h ab z i q : reached solve pinv h ab -> base_fixed false h = true -> rigid_robot ab -> idx (ab_dof ab) z = Some i ->
  exists T F, outcome (py_T_to_parent z q ab) = Ok T /\ outcome (py_T_from_parent z q ab) = Ok F /\ undoes F T.
Proof.
  intros R B H Q. assert (AC : AddComm S) by apply laws_comm. destruct (reached_wfc _ _ _ _ R B) as [T W].
  pose proof Q as Q'. apply idx_spec in Q'. destruct Q' as [Hi _]. destruct q as [q|]; cbn [py_T_to_parent py_T_from_parent].
  - exists (T_par_q ab i q), (iso_inv (T_par_q ab i q)). rewrite !out_leaving. unfold T_from_parent_q, T_to_parent_q.
    rewrite (tk_rbs _ T), Q. split; [auto|]. split; [auto|]. apply inv_undoes, T_par_rigid; auto.
  - exists (tpv ab i), (iso_inv (tpv ab i)). unfold q_T_from_parent. rewrite out_inv, out_Tp, Q by auto.
    split; [auto|]. split; [auto|]. apply inv_undoes, tpv_rigid; auto.
Qed.

(** From a link to the world and back down to its parent. *)
Lemma c71_between h ab i p : reached solve pinv h ab -> base_fixed false h = true -> rigid_robot ab -> (i < ab_dof ab)%nat ->
  requested_parent (accepted h) i = Some p ->
  exists T F t, outcome (py_T_to_world (Z.of_nat i) None ab) = Ok T /\ outcome (py_T_from_world (Z.of_nat p) None ab) = Ok F /\
    outcome (py_T_to_parent (Z.of_nat i) None ab) = Ok t /\ forall x, iso_app F (iso_app T x) = iso_app t x.
Proof.
  intros R B H Hi P. assert (AC : AddComm S) by apply laws_comm. destruct (reached_wfc _ _ _ _ R B) as [T W].
  assert (Hp : par ab i = Some p) by (rewrite (par_requested solve pinv h ab i R Hi); exact P).
  pose proof (tree_par _ _ _ T Hi Hp) as Hlt.
  exists (twv ab i), (iso_inv (twv ab p)), (tpv ab i). cbn [py_T_to_world py_T_from_world py_T_to_parent]. unfold q_T_from_world.
  rewrite out_inv, !out_Tw, out_Tp, !idx_nat by (auto; lia). split; [auto|]. split; [auto|]. split; [auto|].
  intros x. rewrite (twv_eq ab i), Hp by auto. rewrite iso_app_mul. apply (inv_undoes (twv ab p)). apply twv_rigid; auto. lia.
Qed.
End Inv.

Section Any.
Context {S : Scal} (solve : list (list K) -> list K -> list K) (pinv : list (list K) -> K -> list (list K) * bool).

Lemma c71_range {AC : AddComm S} h ab z : reached solve pinv h ab -> idx (ab_dof ab) z = None ->
  (forall q, py_T_from_parent z q ab = UB) /\ (forall q, py_T_from_world z q ab = UB).
Proof.
  intros R Q. pose proof (tree_reached _ _ _ _ R) as T. destruct (tk_cache _ T) as [c E].
  split; intros [q|]; cbn; unfold q_T_from_parent, q_T_from_world, T_from_parent_q, T_from_world_q, q_T_to_world, q_T_to_parent, T_to_parent_q, T_to_world_q, on_cache;
    rewrite ?E, ?(tk_rbs _ T), ?Q; reflexivity.
Qed.
Lemma c31_from (ab : body) z q : T_from_world_q ab z q = UB /\ py_T_to_world z (Some q) ab = UB /\ py_T_from_world z (Some q) ab = UB.
Proof. unfold py_T_to_world, py_T_from_world, T_from_world_q. rewrite c31. auto. Qed.

(** The inverse transforms do not depend on what was asked before. *)
Lemma c71_fresh {AC : AddComm S} h ab mem z : reached solve pinv h ab -> base_fixed false h = true ->
  outcome (py_T_from_world z None ab) = outcome (py_T_from_world z None (cold ab mem)) /\
  forall q, outcome (py_T_from_parent z q ab) = outcome (py_T_from_parent z q (cold ab mem)).
Proof.
  intros R B. pose proof (c03_pose solve pinv h ab mem (QTw z) R B eq_refl) as Hw. pose proof (c03_pose solve pinv h ab mem (QTp z) R B eq_refl) as Hp.
  cbn [ask] in Hw, Hp. rewrite !outcome_wrap in Hw, Hp.
  assert (X : forall a b : res iso, bind a (fun x => Ok (AIso x)) = bind b (fun x => Ok (AIso x)) -> bind a (fun T => Ok (iso_inv T)) = bind b (fun T => Ok (iso_inv T))).
  { intros [a| |] [b| |] E; cbn in *; try discriminate; auto. inversion E; auto. }
  assert (O : forall r : res (body * iso), outcome (bind r (fun '(ab, T) => Ok (ab, iso_inv T))) = bind (outcome r) (fun T => Ok (iso_inv T))).
  { intros [[a x]| |]; reflexivity. }
  split; [|intros [q|]]; cbn [py_T_from_world py_T_from_parent]; unfold q_T_from_world, q_T_from_parent; rewrite ?O; auto.
  rewrite !out_leaving. reflexivity.
Qed.

Lemma map_links_ok (f : rigid_body -> res K) l xs : map_links f l = Ok xs <-> Forall2 (fun rb x => f rb = Ok x) l xs.
Proof.
  revert xs. induction l as [|rb l IH]; intros xs; cbn.
  - split; intros H; [inversion H; constructor|inversion H; auto].
  - split.
    + destruct (f rb) as [x| |] eqn:E; cbn; try discriminate. destruct (map_links f l) as [ys| |] eqn:M; cbn; try discriminate.
      intros H; inversion H; subst. constructor; auto. apply IH; auto.
    + intros H; inversion H; subst. rewrite H2. cbn. apply IH in H4. rewrite H4. reflexivity.
Qed.
Lemma all_links ab : tree_ok ab -> map (fun i => nth i (ab_rbs ab) rb_default) (seq 0 (ab_dof ab)) = ab_rbs ab.
Proof.
  intros T. rewrite <- (tk_rbs _ T). apply (nth_ext _ _ rb_default rb_default).
  - rewrite map_length, seq_length; auto.
  - rewrite map_length, seq_length. intros n Hn. rewrite (nth_indep _ rb_default (nth 0 (ab_rbs ab) rb_default)) by (rewrite map_length, seq_length; auto).
    rewrite (map_nth (fun i => nth i (ab_rbs ab) rb_default)). rewrite seq_nth by auto. reflexivity.
Qed.
Lemma c71_map h (ab : body) (f : rigid_body -> res K) xs : reached solve pinv h ab ->
  (Map f ab = Ok xs <-> Forall2 (fun rb x => f rb = Ok x) (ab_rbs ab) xs).
Proof. intros R. unfold Map. rewrite (all_links ab) by exact (tree_reached _ _ _ _ R). apply map_links_ok. Qed.
Lemma map_links_first (f : rigid_body -> res K) l : (forall rb, f rb <> UB) ->
  (map_links f l = Throw <-> exists rb, In rb l /\ f rb = Throw).
Proof.
  intros N. induction l as [|rb l IH]; cbn.
  - split; [discriminate|intros (? & [] & _)].
  - destruct (f rb) as [x| |] eqn:E; cbn.
    + destruct (map_links f l) as [ys| |] eqn:M; cbn.
      * split; [discriminate|]. intros (r & [-> | I] & F); [congruence|]. destruct IH as [_ IH]. discriminate IH. eauto.
      * split; auto. intros _. destruct IH as [IH _]. destruct (IH eq_refl) as (r & I & F). eauto.
      * split; [discriminate|]. intros (r & [-> | I] & F); [congruence|]. destruct IH as [_ IH]. discriminate IH. eauto.
    + split; auto. intros _. eauto.
    + destruct (N rb E).
Qed.
Lemma c71_map_throw h (ab : body) (f : rigid_body -> res K) : reached solve pinv h ab -> (forall rb, f rb <> UB) ->
  (Map f ab = Throw <-> exists rb, In rb (ab_rbs ab) /\ f rb = Throw).
Proof. intros R N. unfold Map. rewrite (all_links ab) by exact (tree_reached _ _ _ _ R). apply map_links_first; auto. Qed.
End Any.
