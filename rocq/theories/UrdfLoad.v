(** Lemmas about building the robot from sorted links (urdf.cc:203-229, 437-443). *)
From Coq Require Import List Arith ZArith Bool String Lia Permutation.
From Verif Require Import Scalar Base Spatial SpecGeo SpatialProofs Joint Body Kin Json Ops Urdf TreeProofs CacheProofs CacheOps KinProofs
  SpecDyn SpecUrdf UrdfProofs UrdfMerge.
Import ListNotations.

Section UrdfLoad.
Context {S : Scal}.

Notation rmap := (@rmap S).
Variable solve : list (list K) -> list K -> list K.
Variable pinv : list (list K) -> K -> list (list K) * bool.

Lemma run_app h : forall h' (a b : body), run solve pinv h a = Some b -> run solve pinv (h ++ h') a = run solve pinv h' b.
Proof.
  induction h as [|o h IH]; cbn; intros h' a b E; [now inversion E|]. destruct (step _ _ o a); [|discriminate]. eauto.
Qed.
Lemma add_gfx rb p gs (ab : body) : add_rigid_body rb p (ab_with_graphics gs ab) =
  match add_rigid_body rb p ab with Ret ab' id => Ret (ab_with_graphics gs ab') id | Exn ab' => Exn (ab_with_graphics gs ab') | Bad => Bad end.
Proof. unfold add_rigid_body. cbn [ab_rbs ab_with_graphics]. destruct (_ || _); reflexivity. Qed.

(** The links [a] have been added. *)
Record so_far (m : rmap) (root : string) (name : string) (mem : cache) (a : list string) (ids : string -> option Z) (ab : body) : Prop := {
  sf_made : made_of m root a ab;
  sf_tree : tree_ok ab;
  sf_cache : exists c, ab_cache ab = Some (all_clear c);
  sf_root : ids root = Some (-1)%Z;
  sf_ids : forall i n, position a i n -> ids n = Some (Z.of_nat i);
  sf_hist : exists h ab0, building h /\ run solve pinv h (body_new name mem) = Some ab0 /\ ab = ab_with_graphics (ab_graphics ab) ab0;
  sf_name : ab_name ab = name;
  sf_g : ab_g ab = ab_g (body_new name mem)
}.

Lemma position_snoc (a : list string) x i n : position (a ++ [x]) i n -> (position a i n /\ i < List.length a) \/ (i = List.length a /\ n = x).
Proof.
  unfold position. intros H. destruct (Nat.lt_ge_cases i (List.length a)) as [L|L].
  - rewrite nth_error_app1 in H by auto. auto.
  - rewrite nth_error_app2 in H by auto. right. destruct (i - List.length a) as [|k] eqn:E; cbn in H.
    + inversion H. split; auto. lia.
    + destruct k; discriminate.
Qed.
Lemma position_app (a : list string) b i n : position a i n -> position (a ++ b) i n.
Proof. unfold position. intros H. rewrite nth_error_app1; auto. apply nth_error_Some. congruence. Qed.

Lemma add_root (m : rmap) root name mem rb : m root = Some (rb, ""%string) -> klt (imass (rb_inertia rb)) k0 = false ->
  exists ab, AddLink m (fun _ => None) root (body_new name mem) = Ok (ab, (-1)%Z) /\
    so_far m root name mem nil (fun k => if String.eqb k root then Some (-1)%Z else None) ab.
Proof.
  intros E K. destruct (link_some _ _ _ _ E) as [Lr Pr]. unfold AddLink, r_at. rewrite E. cbn [lookup_or_throw bind].
  unfold set_T_base, set_inertia_base. rewrite K. cbn [String.eqb called bind].
  set (T0 := rb_T rb). set (I0 := rb_inertia rb). set (G0 := rb_graphics rb).
  destruct I0 as [m0 c0 [[xx xy xz] [yx yy yz] [zx zy zz]]] eqn:EI. cbn.
  eexists. split; [reflexivity|]. constructor; cbn; auto.
  - constructor; cbn; rewrite ?Lr; fold I0; rewrite ?EI; auto.
    + split; [reflexivity|split; [reflexivity|]]. unfold isym, m3sym, inertia_flat. cbn. intros H. inversion H. reflexivity.
    + intros i n H. destruct i; discriminate.
  - destruct (tree_new name mem). constructor; cbn; eauto; intros; lia.
  - eauto.
  - now rewrite String.eqb_refl.
  - intros i n H. destruct i; discriminate.
  - exists [OSetBase T0; OSetIbase I0]. eexists. split; [repeat constructor|]. rewrite EI. unfold run, step, set_T_base, set_inertia_base.
    cbn [imass]. unfold I0 in EI. rewrite EI in K. cbn in K. rewrite K. cbn. split; reflexivity.
Qed.

Lemma add_next (m : rmap) root name mem a n ids ab t : tree m root (a ++ n :: t) -> so_far m root name mem a ids ab ->
  exists ab' id, AddLink m ids n ab = Ok (ab', id) /\
    so_far m root name mem (a ++ [n]) (fun k => if String.eqb k n then Some id else ids k) ab'.
Proof.
  intros Tr SF. pose proof (tr_distinct _ _ _ Tr) as ND. destruct (nodup3 root a n t ND) as (N1 & N2 & N3 & N4).
  assert (An : In n (root :: a ++ n :: t)) by (right; apply in_or_app; right; now left).
  pose proof (some_link m n (tr_in _ _ _ Tr n An)) as En.
  assert (Up : In (parent m n) (root :: a)).
  { pose proof (tr_first _ _ _ Tr) as F. apply pfrom_appl in F as [_ [F _]].
    apply in_app_or in F as [F|[<-|[]]]; [right; now apply in_rev|now left]. }
  assert (Pos : exists id, ids (parent m n) = Some id /\ (-1 <= id < Z.of_nat (List.length a))%Z /\
     ((parent m n = root /\ id = (-1)%Z) \/ exists j, j < List.length a /\ position a j (parent m n) /\ id = Z.of_nat j)).
  { destruct Up as [E|E].
    - exists (-1)%Z. rewrite <- E, (sf_root _ _ _ _ _ _ _ SF). repeat split; auto; lia.
    - apply In_nth_error in E as (j & Ej). pose proof (nth_error_Some a j) as Hj. rewrite Ej in Hj.
      assert (j < List.length a) by (apply Hj; discriminate).
      exists (Z.of_nat j). rewrite (sf_ids _ _ _ _ _ _ _ SF j _ Ej). repeat split; try lia. right. exists j. auto. }
  destruct Pos as (ip & Ei & Bd & Wh).
  pose proof (sf_made _ _ _ _ _ _ _ SF) as MO. pose proof (mk_dof _ _ _ _ MO) as Hd. pose proof (tk_rbs _ (sf_tree _ _ _ _ _ _ _ SF)) as Hr.
  unfold AddLink, r_at. rewrite En. cbn [lookup_or_throw bind].
  destruct (String.eqb_spec (parent m n) "") as [E0|_].
  { exfalso. apply (tr_nonempty _ _ _ Tr). rewrite <- E0. destruct Up as [->|Up]; [now left|]. right. apply in_or_app. auto. }
  rewrite Ei. cbn [lookup_or_throw bind].
  destruct (proj2 (add_ok_iff (link m n) ip ab)) as (ab' & id & Ea).
  { rewrite Hr, Hd. lia. }
  rewrite Ea. exists ab', id. split; [reflexivity|].
  pose proof (tree_add _ _ _ _ _ (sf_tree _ _ _ _ _ _ _ SF) Ea) as T'.
  destruct (add_fields _ _ _ _ _ Ea) as (F1 & F2 & F3 & F4 & F5 & F6 & F7 & F8 & F9 & F10 & F11).
  assert (Hid : id = Z.of_nat (List.length a)) by (rewrite F1, Hr, Hd; reflexivity).
  constructor; auto.
  - constructor.
    + rewrite F2, Hd, app_length. cbn. lia.
    + rewrite F8. apply MO.
    + rewrite F9. apply MO.
    + rewrite F11. apply MO.
    + intros i x Hx. cbv zeta. rewrite F3. apply position_snoc in Hx as [[Hx Li]|[-> ->]].
      * rewrite app_nth1 by (rewrite Hr, Hd; auto). destruct (mk_links _ _ _ _ MO i x Hx) as (L1 & L2 & L3 & L4 & L5 & L6 & L7).
        repeat split; auto. destruct L7 as [L7|(j & J1 & J2 & J3)]; auto. right. exists j. repeat split; auto. now apply position_app.
      * rewrite app_nth2 by (rewrite Hr, Hd; auto). rewrite Hr, Hd, Nat.sub_diag. cbn. repeat split; auto.
        destruct Wh as [[W1 W2]|(j & J1 & J2 & J3)]; [left; auto|]. right. exists j. repeat split; auto. now apply position_app.
    + destruct (mk_rest _ _ _ _ MO) as (R1 & R2 & R3). rewrite F2, F4, F5, F7, R1, R2, Hr.
      unfold grow. rewrite firstn_all2 by (rewrite repeat_length; auto). repeat split; auto; cbn [repeat]; now rewrite repeat_cons.
  - destruct (sf_cache _ _ _ _ _ _ _ SF) as (c & Ec). unfold add_rigid_body in Ea.
    destruct (_ || _); [discriminate|]. inversion Ea. cbn. rewrite Ec. eexists. reflexivity.
  - destruct (String.eqb_spec root n) as [E|_]; [|apply SF]. exfalso. apply N1. left. auto.
  - intros i x Hx. apply position_snoc in Hx as [[Hx Li]|[-> ->]].
    + destruct (String.eqb_spec x n) as [->|_].
      * exfalso. apply N1. right. eapply nth_error_In; exact Hx.
      * eapply sf_ids; eauto.
    + rewrite String.eqb_refl. now rewrite Hid.
  - destruct (sf_hist _ _ _ _ _ _ _ SF) as (h & ab0 & H1 & H2 & H3).
    rewrite H3, add_gfx in Ea. destruct (add_rigid_body (link m n) ip ab0) as [ab1 id1| |] eqn:Ea0; try discriminate.
    injection Ea as Ea _. exists (h ++ [OAdd (link m n) ip]), ab1. split; [|split].
    + apply Forall_app. split; [exact H1|repeat constructor].
    + rewrite (run_app _ _ _ _ H2). cbn. rewrite Ea0. reflexivity.
    + rewrite <- Ea. reflexivity.
  - rewrite F10. apply SF.
  - rewrite F6. apply SF.
Qed.

Lemma add_rest (m : rmap) root name mem b : forall a ids ab, tree m root (a ++ b) -> so_far m root name mem a ids ab ->
  exists ab' ids', AddLinks m ids b ab = Ok ab' /\ so_far m root name mem (a ++ b) ids' ab'.
Proof.
  induction b as [|n t IH]; intros a ids ab Tr SF; cbn [AddLinks].
  - rewrite app_nil_r. eauto.
  - destruct (add_next _ _ _ _ _ _ _ _ _ Tr SF) as (ab1 & id & E & SF1). rewrite E. cbn [bind].
    replace (a ++ n :: t) with ((a ++ [n]) ++ t) in * by now rewrite <- app_assoc. eauto.
Qed.
Lemma add_links (m : rmap) root name mem t : tree m root t -> klt (imass (rb_inertia (link m root))) k0 = false ->
  exists ab ids, AddLinks m (fun _ => None) (root :: t) (body_new name mem) = Ok ab /\ so_far m root name mem t ids ab.
Proof.
  intros Tr K. pose proof (some_link m root (tr_in _ _ _ Tr root (or_introl eq_refl))) as E. rewrite (tr_root _ _ _ Tr) in E.
  destruct (add_root m root name mem _ E K) as (ab & Ea & SF). cbn [AddLinks]. rewrite Ea. cbn [bind].
  eapply (add_rest m root name mem t nil); eauto.
Qed.

(** * Poses of the loaded robot *)
Lemma qk_map (qs : string -> K) l i n : position l i n -> qk (map qs l) i = qs n.
Proof. unfold position, qk. revert i. induction l as [|x t IH]; intros [|i] H; try discriminate; cbn in *; [now inversion H|auto]. Qed.

Lemma twv_placed {L : ScalLaws S} (m : rmap) root t ab qs : tree m root t -> tree_ok ab -> made_of m root t ab ->
  forall ab2, ab_dof ab2 = ab_dof ab -> ab_rbs ab2 = ab_rbs ab -> ab_Tbase ab2 = ab_Tbase ab -> ab_q ab2 = map qs t -> tree_ok ab2 ->
  forall i n, position t i n -> placed m root qs n (twv ab2 i).
Proof.
  intros Tr T MO ab2 E1 E2 E3 E4 T2. induction i as [i IH] using lt_wf_ind. intros n Hn.
  assert (Li : i < List.length t) by (apply nth_error_Some; unfold position in Hn; congruence).
  destruct (mk_links _ _ _ _ MO i n Hn) as (L1 & L2 & L3 & L4 & L5 & L6 & L7).
  assert (In n t) by (eapply nth_error_In; exact Hn).
  assert (Nr : n <> root). { intros ->. pose proof (tr_distinct _ _ _ Tr) as N. inversion N. auto. }
  pose proof (some_link m n (tr_in _ _ _ Tr n (or_intror H))) as En.
  rewrite twv_eq by (rewrite ?E1, ?(mk_dof _ _ _ _ MO); auto).
  assert (Tp : tpv ab2 i = iso_mul (rb_T (link m n)) (T_joint (rb_joint (link m n)) (qs n))).
  { unfold tpv, T_par_q, rb_at. rewrite E2, E4, (qk_map qs t i n Hn), L3, L5. reflexivity. }
  assert (Pp : par ab2 i = if (rb_parent (nth i (ab_rbs ab) rb_default) <? 0)%Z then None else Some (Z.to_nat (rb_parent (nth i (ab_rbs ab) rb_default)))).
  { unfold par, rb_at. rewrite E2. reflexivity. }
  destruct L7 as [[P1 P2]|(j & J1 & J2 & J3)].
  - rewrite Pp, P2. cbn. rewrite Tp, E3, (mk_base _ _ _ _ MO), <- iso_mul_assoc.
    eapply placed_child; [exact Nr|exact En|]. rewrite P1. constructor.
  - rewrite Pp, J3. replace (Z.of_nat j <? 0)%Z with false by (symmetry; apply Z.ltb_ge; lia). rewrite Nat2Z.id, Tp, <- iso_mul_assoc.
    eapply placed_child; [exact Nr|exact En|]. apply IH; auto.
Qed.
End UrdfLoad.
