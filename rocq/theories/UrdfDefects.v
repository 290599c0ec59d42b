(** What is read from the document, and the defects of reading (C34, C35, C46). *)
From Coq Require Import List Arith ZArith Bool String Lia Permutation SpecFloat QArith Qcanon Reals Lra.
From Verif Require Import Scalar Base Spatial SpecGeo SpatialProofs Joint JointProofs Body Kin Json Ops Specs SpecCache Urdf TreeProofs CacheProofs CacheOps KinProofs
  OpsCache SpecDyn SpecUrdf UrdfProofs UrdfMerge UrdfLoad UrdfTop Instances.
Import ListNotations.

Lemma fin_add (a b : f64) : SFltb a (S754_zero false) = false -> SFltb b (S754_zero false) = false -> SFltb (SFadd 53 1024 a b) (S754_zero false) = false.
Proof.
  assert (BR : forall m e, SFltb (binary_round 53 1024 false m e) (S754_zero false) = false).
  { intros m e. unfold binary_round. destruct (shl_align _ _ _) as [mz ez]. unfold binary_round_aux.
    destruct (shr_fexp _ _ _ _ _) as [r1 e1]. destruct (shr_fexp _ _ _ _ _) as [r2 e2]. destruct (shr_m r2); try reflexivity. destruct (Z.leb _ _); reflexivity. }
  destruct a as [[]|[]| |[] ma ea], b as [[]|[]| |[] mb eb]; cbn; intros; try reflexivity; try discriminate.
  destruct (shl_align ma ea (Z.min ea eb)) as [pa ea']. destruct (shl_align mb eb (Z.min ea eb)) as [pb eb']. cbn [fst cond_Zopp Z.add]. apply BR.
Qed.
Lemma masses_add_f64 sn cs tr : @masses_add (F64of sn cs tr).
Proof. intros a b. apply fin_add. Qed.
Lemma masses_add_R : @masses_add RScal.
Proof. intros a b. change (@klt RScal) with Rltb. rewrite !Rltb_ge. change (@k0 RScal) with 0%R. change (@kadd RScal) with Rplus. lra. Qed.
Lemma masses_add_Qc : @masses_add QcScal.
Proof.
  intros a b. change (@klt QcScal) with Qc_ltb. change (@k0 QcScal) with (Q2Qc 0). change (@kadd QcScal) with Qcplus.
  assert (G : forall x, Qc_ltb x (Q2Qc 0) = false <-> (0 <= x)%Qc).
  { intros x. destruct (Qc_ltb x (Q2Qc 0)) eqn:E.
    - apply Qc_ltb_lt in E. split; [discriminate|]. intros H. exfalso. exact (Qcle_not_lt _ _ H E).
    - split; auto. intros _. apply Qcnot_lt_le. intros H. apply Qc_ltb_lt in H. change (Q2Qc 0) with 0%Qc in *. congruence. }
  rewrite !G. intros A B. change 0%Qc with (0 + 0)%Qc. now apply Qcplus_le_compat.
Qed.

Ltac binv H := repeat match type of H with bind _ _ = Ok _ =>
  let x := fresh "x" in let E := fresh "E" in apply bind_inv in H as (x & E & H) end.

Section Defects.
Context {S : Scal}.
Notation rmap := (@rmap S).
Variable solve : list (list K) -> list K -> list K.
Variable pinv : list (list K) -> K -> list (list K) * bool.
Variable to_k : string -> option K.
Variable to_bound : string -> option bound.
Variable decode : nat -> string -> res (list K).
Variable normalized : v3 -> v3.
Variable join : string -> string -> string.
Local Open Scope string_scope.

(** * Links of a document without a usable order *)
Lemma dfs_no_throw (m : rmap) names (D : forall n, In n names -> m n <> None) fuel : forall it, dfs m names fuel it <> Throw.
Proof.
  induction fuel as [|fuel IH]; intros it; cbn [dfs]; [discriminate|].
  set (ch := fix children (l : list string) : res (list string) := match l with nil => _ | c :: t => _ end).
  assert (C : forall l, incl l names -> ch l <> Throw).
  { induction l as [|c t IHl]; intros I; cbn [ch]; [discriminate|]. fold ch.
    unfold r_at. rewrite (some_link m c) by (apply D, I; now left). cbn [lookup_or_throw bind].
    assert (I' : incl t names) by (intros x X; apply I; now right). specialize (IHl I').
    destruct (String.eqb _ it); [|exact IHl]. specialize (IH c).
    destruct (dfs m names fuel c); cbn [bind]; [|congruence|discriminate].
    destruct (ch t); cbn [bind]; congruence. }
  specialize (C names (incl_refl _)). destruct (ch names); cbn [bind]; congruence.
Qed.
Lemma dfs_child (m : rmap) names fuel it l c rb : dfs m names (Datatypes.S fuel) it = Ok l -> In c names -> m c = Some (rb, it) ->
  exists l', dfs m names fuel c = Ok l'.
Proof.
  cbn [dfs]. set (ch := fix children (l : list string) : res (list string) := match l with nil => _ | c :: t => _ end).
  intros H I E. assert (C : forall l, In c l -> forall r, ch l = Ok r -> exists l', dfs m names fuel c = Ok l').
  { induction l0 as [|d t IHl]; intros X r; [destruct X|]. cbn [ch]; fold ch. intros H'. binv H'.
    destruct x as [rb' p]. destruct X as [->|X].
    - unfold r_at in E0. rewrite E in E0. injection E0 as <- <-. rewrite String.eqb_refl in H'. binv H'. eauto.
    - destruct (String.eqb p it); [binv H'; eauto|eauto]. }
  binv H. eauto.
Qed.
(** A descendant is visited with no more fuel. *)
Lemma dfs_below (m : rmap) names (D : forall n, m n <> None -> In n names) it d : below m it d ->
  forall fuel l, dfs m names fuel it = Ok l -> exists fuel' l', (fuel' <= fuel)%nat /\ dfs m names fuel' d = Ok l'.
Proof.
  induction 1 as [|n rb p E B IH]; intros fuel l H; [eauto|].
  destruct (IH _ _ H) as (f & l' & Lf & E'). destruct f as [|f]; [discriminate|].
  destruct (dfs_child _ _ _ _ _ n rb E') as (l2 & E2); [apply D; congruence|auto|]. exists f, l2. split; [lia|auto].
Qed.
Lemma empty_name (m : rmap) names root simplify ab : (forall n, In n names <-> m n <> None) -> first_root m names root -> below m root "" -> assemble simplify m names ab = UB.
Proof.
  intros D (a & b & E & P & F) B.
  assert (Rin : In root names) by (rewrite E; apply in_or_app; right; now left).
  assert (FR : find_root m names = Ok (Some root)).
  { rewrite E. apply find_root_spec; auto. rewrite <- E. intros n. apply D. }
  unfold assemble, sort_links. rewrite FR. cbn [bind].
  assert (X : forall fuel l, dfs m names fuel root <> Ok l).
  { induction fuel as [fuel IH] using lt_wf_ind. intros l H.
    destruct (dfs_below m names (fun n => proj2 (D n)) _ _ B _ _ H) as (f & l' & Lf & E'). destruct f as [|f]; [discriminate|].
    destruct (dfs_child _ _ _ _ _ root (link m root) E' Rin) as (l2 & E2).
    - rewrite (some_link m root) by now apply D. congruence.
    - exact (IH f ltac:(lia) _ E2). }
  pose proof (dfs_no_throw m names (fun n => proj1 (D n)) (List.length names) root).
  destruct (dfs m names (List.length names) root) as [l| |] eqn:G; [exfalso; eapply X; eauto|congruence|reflexivity].
Qed.
Lemma other_roots (m : rmap) names root simplify name mem ab n d : links_ok m names -> first_root m names root ->
  assemble simplify m names (body_new name mem) = Ok ab -> In n names -> parent m n = "" -> n <> root -> below m n d -> ~ In d (link_names ab).
Proof.
  intros OK R E In' P Ne B X. apply (c34_links solve pinv m names root simplify name mem ab OK R E) in X as (_ & X & _).
  assert (N : m "" = None). { destruct (m "") eqn:Em; auto. exfalso. apply (lk_nonempty _ _ OK), (lk_in _ _ OK). congruence. }
  assert (Z : forall r, In r names -> ~ below m r "").
  { intros r Hr Hb. inversion Hb; subst; [apply (lk_nonempty _ _ OK Hr)|congruence]. }
  assert (Q : forall r, In r names -> parent m r = "" -> below m r d -> forall r', In r' names -> parent m r' = "" -> below m r' d -> r = r').
  { clear X B. intros r Hr Pr Hd. induction Hd as [|k rb p Ek Hd IH]; intros r' Hr' Pr' Hd'.
    - inversion Hd' as [|? rb p Ek Hp]; subst; auto. destruct (link_some _ _ _ _ Ek) as [_ Pk]. rewrite Pr in Pk. subst p. destruct (Z _ Hr' Hp).
    - inversion Hd' as [|? rb' p' Ek' Hp]; subst.
      + destruct (link_some _ _ _ _ Ek) as [_ Pk]. rewrite Pr' in Pk. subst p. destruct (Z _ Hr Hd).
      + rewrite Ek in Ek'. injection Ek' as <- <-. apply IH; assumption. }
  destruct R as (a & b & E' & P' & F). apply Ne. eapply Q; eauto. rewrite E'. apply in_or_app; right; now left.
Qed.

(** * What is read *)
Lemma lookup_ok {A} (o : option A) a : lookup_or_throw o = Ok a -> o = Some a.
Proof. destruct o; cbn; congruence. Qed.
Lemma decode3_ok s v : decode3 decode s = Ok v -> decode 3 s = Ok [vx v; vy v; vz v].
Proof.
  unfold decode3. intros H. binv H. destruct x as [|a [|b [|c [|]]]]; try discriminate. injection H as <-. exact E.
Qed.
Section Origin.
Context {L : ScalLaws S}.
Add Field kf : (@kfield S L).
Lemma origin_read x T : ParseOriginElement decode x = Ok T -> origin decode x T.
Proof.
  unfold ParseOriginElement, origin, vector. destruct (first_kid (x_kids x) "origin") as [o|].
  - intros H. binv H. injection H as <-. cbn [tra rot]. split.
    + destruct (attr o "xyz") as [s|] eqn:A.
      * left. exists o, s. split; [auto|split; auto]. now apply decode3_ok.
      * right. injection E as <-. split; [reflexivity|]. intros y Y. injection Y as <-. exact A.
    + destruct (attr o "rpy") as [s|] eqn:A.
      * left. binv E0. exists x2. split; [exists o, s; split; [auto|split; [auto|now apply decode3_ok]]|].
        injection E0 as <-. unfold rpy_matrix, rpy_rotation. destruct x2 as [r p y].
        unfold angle_axis, m3mul, m3mulv, m3tr, v3dot, v3scale, ex, ey, ez. cbn. f_equal; f_equal; ring.
      * right. injection E0 as <-. split; [reflexivity|]. intros y Y. injection Y as <-. exact A.
  - intros H. injection H as <-. split; right; (split; [reflexivity|discriminate]).
Qed.
End Origin.

Lemma query_ok {A} (parse : string -> option A) x tag k d : optional parse x tag k d (query parse (first_kid (x_kids x) tag) k d).
Proof.
  unfold optional, query. destruct (first_kid (x_kids x) tag) as [y|]; [|right; split; [auto|discriminate]].
  destruct (attr y k) as [s|] eqn:At; [|right; split; [auto|]; intros ? ? H; injection H as <-; congruence].
  destruct (parse s) eqn:P; [left; exists y, s; auto|]. right. split; auto. intros ? ? H. injection H as <-. rewrite At. intros H. injection H as <-. exact P.
Qed.
(** What a joint is, once made. *)
Record made_joint (x : xml) (cont : bool) (t : jtype) (j : joint) : Prop := {
  mj_typ : jtyp j = t;
  mj_sub : jsub j = subspace_of t;
  mj_qmin : if cont then jqmin j = NInf else optional to_bound x "limit" "lower" NInf (jqmin j);
  mj_qmax : if cont then jqmax j = PInf else optional to_bound x "limit" "upper" PInf (jqmax j);
  mj_dq : optional to_bound x "limit" "velocity" PInf (jdqmax j);
  mj_fq : optional to_bound x "limit" "effort" PInf (jfqmax j);
  mj_c : optional to_k x "dynamics" "coulomb" k0 (jcoulomb j);
  mj_v : optional to_k x "dynamics" "damping" k0 (jviscous j);
  mj_s : optional to_k x "dynamics" "friction" k0 (jstiction j)
}.
Lemma make_joint_read x cont t j : make_joint to_k to_bound x cont t = Ok j -> made_joint x cont t j.
Proof.
  unfold make_joint. intros H. binv H.
  unfold set_dq_max in E0. destruct (blt _ _); [discriminate|]. injection E0 as <-.
  unfold set_fq_max in E1. destruct (blt _ _); [discriminate|]. injection E1 as <-.
  unfold set_f_coulomb in E2. destruct (klt _ _); [discriminate|]. injection E2 as <-.
  unfold set_f_stiction in E3. destruct (klt _ _); [discriminate|]. injection E3 as <-.
  unfold set_f_viscous in H. destruct (klt _ _); [discriminate|]. injection H as <-.
  destruct cont.
  - injection E as <-. constructor; cbn; auto; apply query_ok.
  - unfold set_q_limits in E. destruct (blt _ _); [discriminate|]. injection E as <-. constructor; cbn; auto; apply query_ok.
Qed.

(** The effect of one <joint>. *)
Definition joint_effect (x : xml) (m m' : rmap) : Prop :=
  exists p c rb p0, names_link x "parent" = Some p /\ names_link x "child" = Some c /\ m c = Some (rb, p0) /\
  ((~ joins x /\ m' = m) \/
   exists T j, ParseOriginElement decode x = Ok T /\ m' = rput m c (rb_with_T T (rb_with_joint j rb), p) /\
     ((holding x /\ j = joint_of JUndef) \/
      exists axis (cont pris : bool), ParseAxis decode normalized x = Ok axis /\ (if pris then sliding x else turning x) /\
        (cont = true <-> of_type x ["continuous"]) /\ made_joint x cont (axis_type pris axis) j)).
Lemma joint_read_as x m m' : ParseJoint to_k to_bound decode normalized x m = Ok m' -> joint_effect x m m'.
Proof using to_k to_bound decode normalized.
  clear join solve pinv.
  unfold ParseJoint, ParseElement, ParseAttribute, r_at, joint_effect, names_link. intros H. binv H.
  apply lookup_ok in E. apply lookup_ok in E0. apply lookup_ok in E1. rewrite E. exists x1.
  destruct (first_kid (x_kids x) "child") as [xc|]; [|discriminate]. binv H. destruct x4 as [rb p0].
  apply lookup_ok in E2. apply lookup_ok in E3. exists x3, rb, p0. binv H. apply lookup_ok in E6. apply lookup_ok in E7.
  repeat (split; [assumption|]).
  unfold joins, turning, sliding, holding, of_type.
  destruct (String.eqb_spec x7 "revolute") as [->|N1].
  { cbn in H. binv H. injection H as <-. right. exists x4, x7. split; auto. split; auto. right. exists x5, false, false.
    split; auto. split; [exists "revolute"; cbn; auto|]. split; [|now apply make_joint_read].
    split; [discriminate|]. intros (t & Et & [<-|[]]). congruence. }
  destruct (String.eqb_spec x7 "continuous") as [->|N2].
  { cbn in H. binv H. injection H as <-. right. exists x4, x7. split; auto. split; auto. right. exists x5, true, false.
    split; auto. split; [exists "continuous"; cbn; auto|]. split; [|now apply make_joint_read].
    split; auto. intros _. exists "continuous"; cbn; auto. }
  destruct (String.eqb_spec x7 "prismatic") as [->|N3].
  { cbn in H. binv H. injection H as <-. right. exists x4, x7. split; auto. split; auto. right. exists x5, false, true.
    split; auto. split; [exists "prismatic"; cbn; auto|]. split; [|now apply make_joint_read].
    split; [discriminate|]. intros (t & Et & [<-|[]]). congruence. }
  cbn [orb] in H. destruct (String.eqb_spec x7 "fixed") as [->|N4].
  { injection H as <-. right. eexists x4, _. split; auto. split; [reflexivity|]. left. split; auto. exists "fixed"; cbn; auto. }
  left. destruct (String.eqb _ _); [discriminate|]. destruct (String.eqb _ _); [discriminate|]. injection H as <-. split; auto.
  intros [(t & Et & X)|[(t & Et & X)|(t & Et & X)]]; cbn in X; rewrite E7 in Et; injection Et as <-; intuition congruence.
Qed.

Lemma type_is x l l' : of_type x l -> of_type x l' -> exists t, In t l /\ In t l'.
Proof. intros (t & E & I) (t' & E' & I'). rewrite E in E'. injection E' as <-. eauto. Qed.
Lemma axis_cases x axis : ParseAxis decode normalized x = Ok axis -> axis = 0%nat \/ axis = 1%nat \/ axis = 2%nat.
Proof.
  unfold ParseAxis. destruct (first_kid _ _); [|intros H; injection H as <-; auto]. intros H. binv H. injection H as <-.
  destruct (klt _ _); [auto|]. destruct (klt _ _); auto.
Qed.
Lemma made_written x axis (cont pris : bool) j : ParseAxis decode normalized x = Ok axis -> (if pris then sliding x else turning x) ->
  (cont = true <-> of_type x ["continuous"]) -> made_joint x cont (axis_type pris axis) j -> as_written to_k to_bound x j /\ ~ holding x.
Proof using to_k to_bound decode normalized.
  clear join solve pinv.
  intros A P C [M1 M2 M3 M4 M5 M6 M7 M8 M9]. pose proof (axis_cases _ _ A) as Ax. split; [constructor; auto|].
  - unfold is_revolute, is_prismatic. rewrite M1. split; intros T; destruct pris; cbn;
      try (destruct (type_is _ _ _ P T) as (t & I & I'); cbn in I, I'; intuition (subst; discriminate));
      destruct Ax as [-> | [-> | ->]]; reflexivity.
  - unfold axis_of, is_prismatic. rewrite M1, M2. destruct pris, Ax as [-> | [-> | ->]]; cbn; auto.
  - intros T. apply C in T. subst. auto.
  - intros T. destruct cont; [destruct T; now apply C|]. auto.
  - intros T. destruct pris; destruct (type_is _ _ _ P T) as (t & I & I'); cbn in I, I'; intuition (subst; discriminate).
Qed.
Lemma joint_keeps x m m' c rb p : joint_effect x m m' -> m c = Some (rb, p) ->
  exists rb' p', m' c = Some (rb', p') /\ rb_inertia rb' = rb_inertia rb /\ rb_graphics rb' = rb_graphics rb /\ (~ attaches x c -> rb' = rb /\ p' = p).
Proof.
  intros (p1 & c1 & rb1 & p0 & Hp & Hc & E1 & [[N ->]|(T & j & ET & -> & K)]) E; [exists rb, p; auto|].
  destruct (String.eqb_spec c c1) as [->|Ne].
  - rewrite E in E1. injection E1 as <- <-. eexists _, _. split; [apply rput_eq|]. cbn. split; [auto|]. split; [auto|]. intros X. destruct X. split; auto.
    unfold joins. destruct K as [[K _]|(ax & ct & [] & _ & K & _)]; auto.
  - exists rb, p. rewrite rput_ne by auto. auto.
Qed.
Lemma joints_keep l : forall m m' c rb p, ParseJoints to_k to_bound decode normalized l m = Ok m' -> m c = Some (rb, p) ->
  exists rb' p', m' c = Some (rb', p') /\ rb_inertia rb' = rb_inertia rb /\ rb_graphics rb' = rb_graphics rb /\ ((forall x, In x l -> ~ attaches x c) -> rb' = rb /\ p' = p).
Proof.
  induction l as [|x t IH]; cbn [ParseJoints]; intros m m' c rb p H E; [injection H as <-; exists rb, p; auto|]. binv H.
  destruct (joint_keeps _ _ _ _ _ _ (joint_read_as _ _ _ E0) E) as (rb1 & p1 & E1 & I1 & G1 & K1).
  destruct (IH _ _ _ _ _ H E1) as (rb2 & p2 & E2 & I2 & G2 & K2).
  exists rb2, p2. split; auto. split; [congruence|]. split; [congruence|]. intros N.
  destruct K2 as [-> ->]; [intros; apply N; now right|]. apply K1, N. now left.
Qed.
Lemma joints_last {L : ScalLaws S} l a x b c : forall m m', ParseJoints to_k to_bound decode normalized l m = Ok m' -> l = (a ++ x :: b)%list -> attaches x c ->
  (forall y, In y b -> ~ attaches y c) ->
  names_link x "parent" = Some (parent m' c) /\ origin decode x (rb_T (link m' c)) /\
  ((holding x /\ rb_joint (link m' c) = joint_of JUndef) \/ (~ holding x /\ as_written to_k to_bound x (rb_joint (link m' c)))).
Proof.
  revert l. induction a as [|y a IH]; intros l m m' H ->.
  - cbn [app ParseJoints] in H. binv H. intros [A J] N.
    destruct (joint_read_as _ _ _ E) as (p1 & c1 & rb1 & p0 & Hp & Hc & E1 & [[X _]|(T & j & ET & -> & K)]); [contradiction|].
    rewrite A in Hc. injection Hc as <-.
    destruct (joints_keep _ _ _ c _ _ H (rput_eq _ _ _)) as (rb' & p' & E' & _ & _ & K'). destruct (K' N) as [-> ->].
    destruct (link_some _ _ _ _ E') as [-> ->]. cbn. split; auto. split; [now apply origin_read|].
    destruct K as [[X ->]|(ax & ct & pr & Ea & P & C & M)]; [auto|]. right. destruct (made_written _ _ _ _ _ Ea P C M). auto.
  - cbn [app ParseJoints] in H. binv H. eapply IH; eauto.
Qed.
Lemma links_keep path l : forall m m' names, ParseLinks to_k decode join path l m = Ok (m', names) ->
  (forall n, m n <> None -> m' n = m n) /\
  Forall2 (fun x n => attr x "name" = Some n /\ exists rb, ParseRigidBody to_k decode join path x = Ok rb /\ m' n = Some (rb, "")) l names.
Proof.
  induction l as [|x t IH]; cbn [ParseLinks]; intros m m' names H.
  - injection H as <- <-. split; auto.
  - binv H. destruct (m (rb_name x0)) eqn:Em; [discriminate|]. binv H. destruct x1 as [m1 ns]. injection H as <- <-.
    destruct (IH _ _ _ E0) as [A B]. split.
    + intros n X. destruct (String.eqb_spec n (rb_name x0)) as [->|Ne]; [congruence|]. rewrite A; rewrite rput_ne; auto.
    + constructor; [|exact B]. split.
      * pose proof E as E1. unfold ParseRigidBody in E1. binv E1. injection E1 as <-. apply lookup_ok in E2.
        destruct x2 as [nm gs id pp T I j]. cbn. rewrite E2. f_equal. revert E3. unfold ParseInertial. destruct (first_kid _ _); [|intros X; injection X; congruence].
        intros E3. binv E3. unfold rb_set_inertia_flat in E3. destruct (klt _ _); [discriminate|]. injection E3. congruence.
      * exists x0. split; auto. rewrite A; rewrite rput_eq; congruence.
Qed.
Lemma c34_reading {L : ScalLaws S} path doc r name m names : read_document to_k to_bound decode normalized join path doc = Ok (name, m, names) ->
  first_kid doc "robot" = Some r ->
  attr r "name" = Some name /\
  Forall2 (fun x n => attr x "name" = Some n /\ exists rb, ParseRigidBody to_k decode join path x = Ok rb /\
             rb_inertia (link m n) = rb_inertia rb /\ rb_graphics (link m n) = rb_graphics rb) (kids_of (x_kids r) "link") names /\
  (forall a x b c, kids_of (x_kids r) "joint" = (a ++ x :: b)%list -> attaches x c -> (forall y, In y b -> ~ attaches y c) ->
     names_link x "parent" = Some (parent m c) /\ origin decode x (rb_T (link m c)) /\
     ((holding x /\ rb_joint (link m c) = joint_of JUndef) \/ (~ holding x /\ as_written to_k to_bound x (rb_joint (link m c))))) /\
  (forall c, In c names -> (forall x, In x (kids_of (x_kids r) "joint") -> ~ attaches x c) ->
     parent m c = "" /\ rb_T (link m c) = iso_id /\ rb_joint (link m c) = joint_default).
Proof.
  unfold read_document, ParseElement. intros H Hr. rewrite Hr in H. cbn [lookup_or_throw bind] in H. binv H. destruct x1 as [m0 ns]. binv H. injection H as <- <- <-.
  apply lookup_ok in E. split; [exact E|]. destruct (links_keep _ _ _ _ _ E1) as [_ F]. split; [|split].
  - clear - F E3. induction F as [|x n l l' [A (rb & B & C)] F IH]; constructor; auto. split; auto. exists rb. split; auto.
    destruct (joints_keep _ _ _ _ _ _ E3 C) as (rb' & p' & E' & I & G & _). destruct (link_some _ _ _ _ E') as [-> _]. auto.
  - intros a y b c J A N. eapply joints_last; eauto.
  - intros c Hc N. assert (X : exists x rb, ParseRigidBody to_k decode join path x = Ok rb /\ m0 c = Some (rb, "")).
    { clear - F Hc. induction F as [|x n l l' [A (rb & B & C)] F IH]; [destruct Hc|]. destruct Hc as [->|Hc]; eauto. }
    destruct X as (xl & rb & P & C). destruct (joints_keep _ _ _ _ _ _ E3 C) as (rb' & p' & E' & _ & _ & K).
    destruct (K N) as [-> ->]. destruct (link_some _ _ _ _ E') as [-> ->]. split; auto.
    unfold ParseRigidBody in P. binv P. injection P as <-. cbn. match goal with H : ParseInertial _ _ _ _ = Ok _ |- _ => revert H end. unfold ParseInertial.
    destruct (first_kid (x_kids xl) "inertial") as [xi|]; intros Q; [|assert (Q' : x4 = rb_with_name x3 rb_default) by congruence; rewrite Q'; auto].
    binv Q. unfold rb_set_inertia_flat in Q. destruct (klt _ _); [discriminate|]. cbn [called] in Q. injection Q as <-. auto.
Qed.

(** * Mis-readings *)
Lemma missing_child x m p : names_link x "parent" = Some p -> m p <> None -> first_kid (x_kids x) "child" = None ->
  ParseJoint to_k to_bound decode normalized x m = UB.
Proof.
  unfold names_link, ParseJoint, ParseElement, ParseAttribute, r_at. destruct (first_kid (x_kids x) "parent"); [|discriminate].
  cbn [lookup_or_throw bind]. intros -> M ->. cbn [lookup_or_throw bind]. destruct (m p); [reflexivity|congruence].
Qed.
Lemma rootless_assemble simplify (m : rmap) names ab : (forall n, In n names -> m n <> None /\ parent m n <> "") -> assemble simplify m names ab = UB.
Proof.
  intros H. unfold assemble, sort_links.
  assert (F : forall l, incl l names -> find_root m l = Ok None).
  { induction l as [|n t IH]; intros I; cbn [find_root]; [reflexivity|]. destruct (H n (I n (or_introl eq_refl))) as [A B].
    unfold r_at. rewrite (some_link m n A). cbn [lookup_or_throw bind]. destruct (String.eqb_spec (parent m n) ""); [contradiction|].
    apply IH. intros x X. apply I. now right. }
  rewrite (F names (incl_refl _)). reflexivity.
Qed.
Lemma unknown_type x m m' : ParseJoint to_k to_bound decode normalized x m = Ok m' -> ~ joins x -> m' = m.
Proof.
  intros H N. destruct (joint_read_as _ _ _ H) as (p & c & rb & p0 & _ & _ & _ & [[_ E]|(T & j & _ & _ & K)]); auto.
  destruct N. unfold joins. destruct K as [[K _]|(ax & ct & [] & _ & K & _)]; auto.
Qed.
Lemma no_inertial path x rb : ParseRigidBody to_k decode join path x = Ok rb -> first_kid (x_kids x) "inertial" = None ->
  rb_inertia rb = inertia_flat k1 v3zero k0 k0 k0 k0 k0 k0.
Proof.
  unfold ParseRigidBody, ParseInertial. intros H Ei. rewrite Ei in H. binv H. injection E0 as <-. injection H as <-. reflexivity.
Qed.
Lemma kids_filter l tag tag' : tag <> tag' -> kids_of (filter (fun y => negb (String.eqb (x_tag y) tag')) l) tag = kids_of l tag.
Proof.
  intros N. unfold kids_of. induction l as [|y t IH]; cbn; auto. destruct (String.eqb_spec (x_tag y) tag') as [E|E]; cbn.
  - rewrite IH. destruct (String.eqb_spec (x_tag y) tag); [congruence|auto].
  - rewrite IH. reflexivity.
Qed.
Lemma visual_material path t a kids : ParseGraphics to_k decode join path (Elem t a kids) =
  ParseGraphics to_k decode join path (Elem t a (filter (fun y => negb (String.eqb (x_tag y) "material")) kids)).
Proof.
  unfold ParseGraphics, ParseOriginElement, ParseElement, attr. cbn [x_kids x_attrs].
  unfold first_kid. rewrite !kids_filter by discriminate. reflexivity.
Qed.
Lemma python_base doc path simplify mem ab : LoadModel to_k to_bound decode normalized join doc path simplify mem = Ok ab ->
  exists ab', py_load_model to_k to_bound decode normalized join doc path simplify mem = Ok ab' /\
    ab_Ibase ab' = inertia_flat k1 v3zero k0 k0 k0 k0 k0 k0 /\ ab_rbs ab' = ab_rbs ab.
Proof. unfold py_load_model. intros ->. cbn [bind]. eexists. split; [reflexivity|]. split; reflexivity. Qed.

Section Turned.
Context {L : ScalLaws S}.
Add Field kf3 : (@kfield S L).
Lemma inertia_read path x i rb : ParseRigidBody to_k decode join path x = Ok rb -> first_kid (x_kids x) "inertial" = Some i ->
  exists T m xx yy zz xy xz yz, origin decode i T /\ number to_k i "mass" "value" m /\
    number to_k i "inertia" "ixx" xx /\ number to_k i "inertia" "iyy" yy /\ number to_k i "inertia" "izz" zz /\
    number to_k i "inertia" "ixy" xy /\ number to_k i "inertia" "ixz" xz /\ number to_k i "inertia" "iyz" yz /\
    rb_inertia rb = inertia_at (Iso (m3tr (rot T)) (tra T)) m xx yy zz xy xz yz.
Proof.
  unfold ParseRigidBody, ParseInertial. intros H Ei. rewrite Ei in H. binv H. injection H as <-. binv E0.
  unfold ParseElement, ParseDoubleAttribute in *. binv E4. binv E6. binv E7. binv E8. binv E9. binv E10. binv E11.
  repeat match goal with H : lookup_or_throw _ = Ok _ |- _ => apply lookup_ok in H end.
  unfold rb_set_inertia_flat in E0. destruct (klt _ _); [discriminate|]. injection E0 as <-.
  exists x3, x5, x7, x8, x9, x10, x11, x12. split; [now apply origin_read|]. unfold number. repeat (split; [eauto 6|]).
  destruct x3 as [[[a b c] [d e f] [g h ii]] [tx ty tz]]. cbn -[kadd kmul].
  unfold inertia_at, iact, inertia_flat, turn_inertia, m3mul, m3mulv, m3tr, iso_app. cbn -[kadd kmul]. f_equal.
  - cbv [v3add iso_app tra rot m3mulv v3dot]. cbn. f_equal; ring.
  - cbn. f_equal; f_equal; unfold v3dot; cbn; ring.
Qed.
End Turned.

(** * Loading a document *)
Section Loaded.
Variables (path : string) (doc : list xml) (name : string) (m : rmap) (names : list string).
Hypothesis Rd : read_document to_k to_bound decode normalized join path doc = Ok (name, m, names).
Hypothesis Ne : ~ In "" names.
Lemma load_is simplify mem : LoadModel to_k to_bound decode normalized join (Some doc) path simplify mem = assemble simplify m names (body_new name mem).
Proof. unfold LoadModel. cbn [lookup_or_throw bind]. rewrite Rd. reflexivity. Qed.
Lemma has_root (l : list string) : (exists n, In n l /\ parent m n = "") -> exists root, first_root m l root.
Proof.
  unfold first_root. induction l as [|x t IH]; intros (n & I & P); [destruct I|].
  destruct (String.eqb_spec (parent m x) "") as [E|E]; [exists x, nil, t; auto|].
  destruct I as [->|I]; [contradiction|]. destruct IH as (r & a & b & -> & Pr & F); [eauto|].
  exists r, (x :: a), b. cbn. auto.
Qed.
Context {L : ScalLaws S}.
Let OK : links_ok m names := proj1 (c34_document _ _ _ _ _ _ _ _ _ _ Rd Ne).
Lemma load_root simplify mem ab : LoadModel to_k to_bound decode normalized join (Some doc) path simplify mem = Ok ab -> exists root, first_root m names root.
Proof.
  rewrite load_is. intros H. apply has_root.
  destruct (existsb (fun n => String.eqb (parent m n) "") names) eqn:E.
  - apply existsb_exists in E as (n & I & P). apply String.eqb_eq in P. eauto.
  - rewrite rootless_assemble in H; [discriminate|]. intros n I. split; [now apply OK|]. intros P.
    assert (existsb (fun n => String.eqb (parent m n) "") names = true); [|congruence].
    apply existsb_exists. exists n. split; auto. now apply String.eqb_eq.
Qed.
Lemma load_accepts simplify mem : masses_add -> klt k1 k0 = false -> (exists n, In n names /\ parent m n = "") ->
  exists ab, LoadModel to_k to_bound decode normalized join (Some doc) path simplify mem = Ok ab /\ ab_name ab = name.
Proof.
  intros A O R. destruct (has_root _ R) as (root & F). pose proof (c34_document _ _ _ _ _ _ _ _ _ _ Rd Ne) as [_ D].
  assert (Rin : In root names). { destruct F as (a & b & -> & _). apply in_or_app. right. now left. }
  destruct (c34_accepts solve pinv m names root simplify name mem OK F A) as (ab & E).
  - intros n B. apply D; auto. clear - B OK Rin. induction B; auto. eapply some_in; eauto.
  - exists ab. rewrite load_is. split; auto. apply (c34_links solve pinv m names root simplify name mem ab OK F E).
Qed.
Lemma load_order root : first_root m names root -> exists l, sort_links m names = Ok (root :: l) /\ NoDup (root :: l) /\
  (forall n, In n (root :: l) <-> below m root n) /\ parents_first m (root :: l).
Proof. intros F. destruct (order m names root OK F) as (t & H). eauto. Qed.
Variables (root : string) (simplify : bool) (mem : @cache S) (ab : body).
Hypothesis F : first_root m names root.
Hypothesis E : LoadModel to_k to_bound decode normalized join (Some doc) path simplify mem = Ok ab.
Lemma loaded : assemble simplify m names (body_new name mem) = Ok ab.
Proof. rewrite <- load_is. exact E. Qed.
Lemma load_links : NoDup (link_names ab) /\
  (forall n, In n (link_names ab) <-> n <> root /\ below m root n /\ (simplify = true -> ~ fixed_joint (link m n))) /\
  (forall i n, position (link_names ab) i n -> rb_joint (nth i (ab_rbs ab) rb_default) = rb_joint (link m n)) /\
  (simplify = false -> sort_links m names = Ok (root :: link_names ab) /\ made_of m root (link_names ab) ab) /\
  ab_name ab = name /\ built solve pinv ab.
Proof. exact (c34_links solve pinv m names root simplify name mem ab OK F loaded). Qed.
Lemma load_poses {Q : EqSound S} qs : ab_Tbase ab = rb_T (link m root) /\
  forall i n, position (link_names ab) i n -> exists ab2 T, set_q (map qs (link_names ab)) ab = Ret ab2 tt /\
    outcome (q_T_to_world (Z.of_nat i) ab2) = Ok T /\ placed m root qs n T.
Proof. exact (c34_poses solve pinv m names root simplify name mem ab OK F loaded qs). Qed.
Lemma load_bodies {P : PosLaws S} : simplify = true -> (forall n, below m root n -> klt k0 (imass (rb_inertia (link m n))) = true) ->
  (exists g, rigid_group m root root g /\ same_body (ab_Ibase ab) (ab_graphics ab) m g) /\
  (forall i n, position (link_names ab) i n -> exists g, rigid_group m root n g /\
     same_body (rb_inertia (nth i (ab_rbs ab) rb_default)) (rb_graphics (nth i (ab_rbs ab) rb_default)) m g).
Proof.
  intros Si Ms. apply (c34_bodies solve pinv m names root simplify name mem ab OK F loaded Si).
  pose proof (c34_document _ _ _ _ _ _ _ _ _ _ Rd Ne) as [_ D].
  assert (Rin : In root names). { destruct F as (a & b & -> & _). apply in_or_app. right. now left. }
  intros n B. assert (I : In n names). { clear - B OK Rin. induction B; auto. eapply some_in; eauto. }
  destruct (D n I) as (X & _ & Y). auto.
Qed.
Lemma load_mass l : NoDup l -> (forall n, In n l <-> below m root n) ->
  kadd (imass (ab_Ibase ab)) (total (map (fun rb => imass (rb_inertia rb)) (ab_rbs ab))) = total (map (fun n => imass (rb_inertia (link m n))) l).
Proof. exact (c34_mass solve pinv m names root simplify name mem ab OK F loaded l). Qed.
Lemma load_other_roots n d : In n names -> parent m n = "" -> n <> root -> below m n d -> ~ In d (link_names ab).
Proof. exact (other_roots m names root simplify name mem ab n d OK F loaded). Qed.
Lemma load_fixed n : simplify = false -> n <> root -> below m root n -> fixed_joint (link m n) ->
  exists i, (i < ab_dof ab)%nat /\ position (link_names ab) i n /\ jtyp (rb_joint (nth i (ab_rbs ab) rb_default)) = JUndef.
Proof.
  intros Si N B Fx. destruct load_links as (_ & A & J & Mk & _). destruct (Mk Si) as [_ MO].
  assert (I : In n (link_names ab)) by (apply A; split; [auto|split; [auto|congruence]]).
  apply In_nth_error in I as (i & I). exists i. split; [|split; [exact I|]].
  - rewrite (mk_dof _ _ _ _ MO). apply nth_error_Some. congruence.
  - rewrite (J i n I). exact Fx.
Qed.
End Loaded.
Lemma links_dom path l : forall m m' names, ParseLinks to_k decode join path l m = Ok (m', names) -> forall n, m' n <> None <-> m n <> None \/ In n names.
Proof.
  induction l as [|x t IH]; cbn [ParseLinks]; intros m m' names H n.
  - injection H as <- <-. split; auto. intros [X|[]]; auto.
  - binv H. destruct (m (rb_name x0)) eqn:Em; [discriminate|]. binv H. destruct x1 as [m1 ns]. injection H as <- <-.
    rewrite (IH _ _ _ E0 n). cbn [In]. destruct (String.eqb_spec n (rb_name x0)) as [->|Ne'].
    + rewrite rput_eq. split; auto. left. discriminate.
    + rewrite rput_ne by auto. split; intros [X|X]; auto. destruct X; auto; congruence.
Qed.
Lemma joints_dom l : forall m m', ParseJoints to_k to_bound decode normalized l m = Ok m' -> forall n, m' n <> None <-> m n <> None.
Proof.
  induction l as [|x t IH]; cbn [ParseJoints]; intros m m' H n; [injection H as <-; split; auto|]. binv H. rewrite (IH _ _ H n).
  destruct (joint_read_as _ _ _ E) as (p & c & rb & p0 & _ & _ & E1 & [[_ ->]|(T & j & _ & -> & _)]); [split; auto|].
  destruct (String.eqb_spec n c) as [->|Ne']; [rewrite rput_eq; split; congruence|]. rewrite rput_ne by auto. split; auto.
Qed.
Lemma document_dom path doc name m names : read_document to_k to_bound decode normalized join path doc = Ok (name, m, names) -> forall n, In n names <-> m n <> None.
Proof.
  unfold read_document. intros H n. binv H. destruct x2 as [m0 ns]. binv H. injection H as <- <- <-.
  rewrite (joints_dom _ _ _ E4 n), (links_dom _ _ _ _ _ E2 n). split; auto. intros [X|X]; [congruence|auto].
Qed.
Lemma load_empty path doc name m names root simplify mem : read_document to_k to_bound decode normalized join path doc = Ok (name, m, names) ->
  first_root m names root -> below m root "" ->
  LoadModel to_k to_bound decode normalized join (Some doc) path simplify mem = UB.
Proof. intros Rd F B. rewrite (load_is _ _ _ _ _ Rd). apply (empty_name m names root); auto. eapply document_dom; eauto. Qed.
Lemma load_rootless path doc name m names simplify mem : read_document to_k to_bound decode normalized join path doc = Ok (name, m, names) ->
  (forall n, In n names -> parent m n <> "") ->
  LoadModel to_k to_bound decode normalized join (Some doc) path simplify mem = UB.
Proof. intros Rd H. rewrite (load_is _ _ _ _ _ Rd). apply rootless_assemble. intros n I. split; auto. now apply (document_dom _ _ _ _ _ Rd). Qed.
End Defects.

(** * The axis, over the reals *)
Section Axis.
Local Open Scope R_scope.
Notation V := (@v3 RScal).
Lemma norm_pos (v : V) : v <> V3 0 0 0 -> 0 < norm v.
Proof.
  intros N. apply sqrt_lt_R0. destruct v as [a b c]. cbn.
  destruct (Rtotal_order a 0) as [|[->|]]; [nra| |nra]. destruct (Rtotal_order b 0) as [|[->|]]; [nra| |nra].
  destruct (Rtotal_order c 0) as [|[->|]]; [nra|exfalso; apply N; reflexivity|nra].
Qed.
Lemma norm_sq (v : V) : norm v * norm v = vx v * vx v + vy v * vy v + vz v * vz v.
Proof. apply sqrt_sqrt. nra. Qed.
Variable to_k : string -> option R.
Variable to_bound : string -> option (@bound RScal).
Variable decode : nat -> string -> res (list R).
Variable normalized : V -> V.
Hypothesis Nz : forall v : V, v <> V3 0 0 0 -> normalized v = V3 (vx v / norm v) (vy v / norm v) (vz v / norm v).
Local Open Scope string_scope.

Lemma axis_read x m m' c v : @ParseJoint RScal to_k to_bound decode normalized x m = Ok m' -> attaches x c -> ~ holding x ->
  @vector RScal decode x "axis" "xyz" v -> v <> V3 0 0 0 ->
  let u := axis_of (rb_joint (link m' c)) in
  (u = ey <-> 8/10 * norm v < vy v) /\ (u = ez <-> 8/10 * norm v < vz v) /\
  (u = ex <-> vy v <= 8/10 * norm v /\ vz v <= 8/10 * norm v).
Proof.
  intros H [A J] N (y & s & Ey & Es & Ed) Nv.
  apply joint_read_as in H as (p & c1 & rb & p0 & Hp & Hc & E1 & [[X _]|(T & j & ET & -> & K)]); [contradiction|].
  rewrite A in Hc. injection Hc as <-. destruct K as [[X _]|(ax & ct & pr & Ea & P & C & M)]; [contradiction|].
  destruct (link_some _ _ _ _ (rput_eq m c (rb_with_T T (rb_with_joint j rb), p))) as [-> _]. cbn zeta. cbn [rb_with_T rb_with_joint rb_joint].
  unfold ParseAxis in Ea. rewrite Ey in Ea. unfold ParseAttribute in Ea. rewrite Es in Ea. cbn [lookup_or_throw bind] in Ea.
  unfold decode3 in Ea. rewrite Ed in Ea. cbn [bind] in Ea. injection Ea as Ea.
  pose proof (norm_pos v Nv) as Np. pose proof (norm_sq v) as Nq.
  assert (Eta : V3 (vx v) (vy v) (vz v) = v) by (destruct v; reflexivity). rewrite Eta, Nz in Ea by exact Nv. cbn [vx vy vz] in Ea.
  assert (D : forall w : R, Rltb (8/10) (w / norm v) = true <-> 8/10 * norm v < w).
  { intros w. rewrite Rltb_lt. split; intros Q.
    - apply (Rmult_lt_compat_r (norm v)) in Q; auto. replace (w / norm v * norm v) with w in Q by (field; lra). exact Q.
    - apply (Rmult_lt_reg_r (norm v)); auto. replace (w / norm v * norm v) with w by (field; lra). exact Q. }
  assert (D' : forall w : R, Rltb (8/10) (w / norm v) = false <-> w <= 8/10 * norm v).
  { intros w. specialize (D w). destruct (Rltb (8/10) (w / norm v)); split; try discriminate; auto.
    - intros Q. apply Rlt_not_le in Q; [destruct Q|]. now apply D.
    - intros _. apply Rnot_lt_le. intros Q. apply D in Q. discriminate. }
  assert (Ea' : ax = if Rltb (8/10) (vy v / norm v) then 1%nat else if Rltb (8/10) (vz v / norm v) then 2%nat else 0%nat) by (symmetry; exact Ea).
  clear Ea.
  assert (Ax : axis_of j = match ax with 0%nat => ex | 1%nat => ey | _ => ez end).
  { unfold axis_of, is_prismatic. rewrite (mj_typ _ _ _ _ _ _ M), (mj_sub _ _ _ _ _ _ M). subst ax.
    destruct (Rltb _ _); [|destruct (Rltb _ _)]; destruct pr; reflexivity. }
  rewrite Ax. clear Ax M. subst ax.
  assert (E01 : @ex RScal <> ey /\ @ey RScal <> ez /\ @ex RScal <> ez).
  { unfold ex, ey, ez. change (@k1 RScal) with 1. change (@k0 RScal) with 0. repeat split; intros Q; injection Q; intros; lra. }
  destruct E01 as (X1 & X2 & X3).
  destruct (Rltb (8/10) (vy v / norm v)) eqn:B1; [apply D in B1|apply D' in B1].
  - assert (vz v <= 8/10 * norm v) by nra. split; [split; auto|]. split; split; intros Q; try lra; exfalso; auto.
  - destruct (Rltb (8/10) (vz v / norm v)) eqn:B2; [apply D in B2|apply D' in B2];
      (split; [split; intros Q; try lra; exfalso; auto|]; split; split; intros Q; auto; try lra; exfalso; auto).
Qed.
(** A positive multiple. *)
Lemma axis_right x m m' c v : @ParseJoint RScal to_k to_bound decode normalized x m = Ok m' -> attaches x c -> ~ holding x ->
  @vector RScal decode x "axis" "xyz" v -> v <> V3 0 0 0 ->
  let u := axis_of (rb_joint (link m' c)) in
  ((exists k, 0 < k /\ v = @v3scale RScal k u) <-> exists k (e : V), 0 < k /\ In e [ex; ey; ez] /\ v = @v3scale RScal k e) /\
  (forall k (e : V), 0 < k -> In e [ex; ey; ez] -> v = @v3scale RScal (Ropp k) e -> u = ex).
Proof.
  intros H A N Hv Nv u. destruct (axis_read x m m' c v H A N Hv Nv) as (U1 & U2 & U3). fold u in U1, U2, U3.
  pose proof (norm_pos v Nv) as Np. pose proof (norm_sq v) as Nq.
  assert (Un : In u [ex; ey; ez]).
  { destruct (Rlt_le_dec (8/10 * norm v) (vy v)); [apply U1 in r; rewrite r; cbn; auto|].
    destruct (Rlt_le_dec (8/10 * norm v) (vz v)); [apply U2 in r0; rewrite r0; cbn; auto|]. rewrite (proj2 U3) by auto. cbn; auto. }
  assert (Nn : forall k e, 0 < k -> In e [@ex RScal; ey; ez] -> v = @v3scale RScal k e \/ v = @v3scale RScal (Ropp k) e -> norm v = k).
  { intros k e Hk He Hev. apply Rsqr_inj; [lra|lra|]. unfold Rsqr. rewrite Nq.
    destruct He as [<-|[<-|[<-|[]]]], Hev as [-> | ->]; cbn; ring. }
  split; [split|].
  - intros (k & Hk & E). eauto.
  - intros (k & e & Hk & He & E). exists k. split; auto. rewrite E. f_equal. pose proof (Nn k e Hk He (or_introl E)) as Nk. symmetry.
    rewrite Nk in U1, U2, U3.
    destruct He as [<-|[<-|[<-|[]]]]; [apply U3|apply U1|apply U2]; rewrite E; cbn; lra.
  - intros k e Hk He E. pose proof (Nn k e Hk He (or_intror E)) as Nk. apply U3. rewrite Nk, E.
    destruct He as [<-|[<-|[<-|[]]]]; cbn; lra.
Qed.
End Axis.
