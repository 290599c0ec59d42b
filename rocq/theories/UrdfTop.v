(** Reading a document and loading it as a whole (urdf.cc:242-446). *)
From Coq Require Import List Arith ZArith Bool String Lia Permutation.
From Verif Require Import Scalar Base Spatial SpecGeo SpatialProofs Joint JointProofs Body Kin Json Ops Specs SpecCache Urdf TreeProofs CacheProofs CacheOps KinProofs
  OpsCache SpecDyn SpecUrdf UrdfProofs UrdfMerge UrdfLoad.
Import ListNotations.

Section UrdfTop.
Context {S : Scal}.
Notation rmap := (@rmap S).
Variable solve : list (list K) -> list K -> list K.
Variable pinv : list (list K) -> K -> list (list K) * bool.
Variable to_k : string -> option K.
Variable to_bound : string -> option bound.
Variable decode : nat -> string -> res (list K).
Variable normalized : v3 -> v3.
Variable join : string -> string -> string.

Lemma bind_inv {A B} (r : res A) (f : A -> res B) y : bind r f = Ok y -> exists x, r = Ok x /\ f x = Ok y.
Proof. destruct r; cbn; intros; try discriminate. eauto. Qed.
Ltac binv H := repeat match type of H with bind _ _ = Ok _ =>
  let x := fresh "x" in let E := fresh "E" in apply bind_inv in H as (x & E & H) end.

(** * From the document *)
Section Read.
Context {L : ScalLaws S}.
Lemma origin_rigid x T : ParseOriginElement decode x = Ok T -> rigid T.
Proof.
  unfold ParseOriginElement. destruct (first_kid _ _) as [o|].
  - intros H. binv H. injection H as <-. unfold rigid. cbn. destruct (attr o "rpy").
    + binv E0. injection E0 as <-. unfold rpy_matrix. auto using is_rot_mul, angle_axis_x, angle_axis_y, angle_axis_z.
    + injection E0 as <-. apply is_rot_id.
  - intros H. injection H as <-. apply rigid_id.
Qed.
(** What every link of the document satisfies at every moment of the reading. *)
Definition well_read (m : rmap) (n : string) (rb : rigid_body) (p : string) : Prop :=
  rb_name rb = n /\ (p = ""%string \/ m p <> None) /\ rigid (rb_T rb) /\ (klt k1 k0 = false -> klt (imass (rb_inertia rb)) k0 = false) /\ isym (rb_inertia rb).

Lemma inertial_frame x rb rb' : ParseInertial to_k decode x rb = Ok rb' ->
  rb_name rb' = rb_name rb /\ rb_T rb' = rb_T rb /\ (rb_inertia rb' = rb_inertia rb \/ klt (imass (rb_inertia rb')) k0 = false /\ isym (rb_inertia rb')).
Proof.
  unfold ParseInertial. destruct (first_kid _ _); [|intros H; injection H as <-; auto].
  intros H. binv H. unfold rb_set_inertia_flat in H. match type of H with context [klt ?a ?b] => destruct (klt a b) eqn:K end; [discriminate|]. cbn in H. injection H as <-. cbn. split; [auto|split; [auto|right; split; [exact K|reflexivity]]].
Qed.
Lemma rigid_body_read path x rb : ParseRigidBody to_k decode join path x = Ok rb ->
  attr x "name" = Some (rb_name rb) /\ rigid (rb_T rb) /\ (klt k1 k0 = false -> klt (imass (rb_inertia rb)) k0 = false) /\ isym (rb_inertia rb).
Proof.
  unfold ParseRigidBody. intros H. binv H. injection H as <-. unfold ParseAttribute, lookup_or_throw in E.
  destruct (attr x "name") as [s|]; [|discriminate]. injection E as <-.
  destruct (inertial_frame _ _ _ E0) as (A & B & C). cbn in *. rewrite A, B. split; [auto|]. split; [apply rigid_id|].
  destruct C as [->|[C D]]; [|auto]. split; [auto|]. reflexivity.
Qed.

Lemma links_read path l : forall m m' names, ParseLinks to_k decode join path l m = Ok (m', names) ->
  NoDup names /\ (forall n, In n names -> m n = None) /\ (forall n, m n <> None -> m' n = m n) /\
  (forall n, m' n <> None <-> m n <> None \/ In n names) /\
  (forall n, In n names -> exists rb, m' n = Some (rb, ""%string) /\ rb_name rb = n /\ rigid (rb_T rb) /\ (klt k1 k0 = false -> klt (imass (rb_inertia rb)) k0 = false) /\ isym (rb_inertia rb)).
Proof.
  induction l as [|x t IH]; intros m m' names H; cbn [ParseLinks] in H.
  - injection H as <- <-. split; [constructor|]. repeat split; try tauto; try (intros n []).
  - binv H. destruct (m (rb_name x0)) eqn:Em; [discriminate|]. binv H. destruct x1 as [m1 ns]. injection H as <- <-.
    destruct (rigid_body_read _ _ _ E) as (Hn & Hr & Hm & Hs).
    destruct (IH _ _ _ E0) as (A & B & C & D & F).
    assert (Nn : ~ In (rb_name x0) ns). { intros X. apply B in X. rewrite rput_eq in X. discriminate. }
    assert (Ex : m1 (rb_name x0) = Some (x0, ""%string)). { rewrite C; rewrite rput_eq; congruence. }
    split; [constructor; auto|]. split; [|split; [|split]].
    + intros n [<-|X]; auto. specialize (B n X). destruct (String.eqb_spec n (rb_name x0)) as [->|Ne]; auto. rewrite rput_ne in B; auto.
    + intros n X. assert (n <> rb_name x0) by congruence. rewrite C; rewrite rput_ne; auto.
    + intros n. rewrite D. destruct (String.eqb_spec n (rb_name x0)) as [->|Ne].
      * rewrite rput_eq. cbn [In]. split; [auto|]. intros _. left. congruence.
      * rewrite rput_ne by auto. cbn [In]. split; [tauto|]. intros [X|[X|X]]; [auto|congruence|auto].
    + intros n [<-|X]; auto. exists x0. auto.
Qed.
Definition read_ok (m : rmap) (names : list string) : Prop :=
  NoDup names /\ (forall n, In n names <-> m n <> None) /\ forall n rb p, m n = Some (rb, p) -> well_read m n rb p.
Lemma links_read_ok path l m names : ParseLinks to_k decode join path l (fun _ => None) = Ok (m, names) -> read_ok m names.
Proof.
  intros H. destruct (links_read _ _ _ _ _ H) as (A & _ & _ & D & F). split; [auto|split].
  - intros n. rewrite D. split; auto. intros [X|X]; [congruence|auto].
  - intros n rb p E. destruct (F n) as (rb' & E' & G). { destruct (proj1 (D n)); [congruence|congruence|auto]. }
    rewrite E in E'. injection E' as <- ->. unfold well_read. intuition.
Qed.
Lemma put_read_ok (m : rmap) names c rb0 p0 rb p : m c = Some (rb0, p0) -> well_read m c rb p -> read_ok m names -> read_ok (rput m c (rb, p)) names.
Proof.
  intros E (W1 & W2 & W3 & W4 & W5) (A & B & C).
  assert (Dom : forall n, rput m c (rb, p) n <> None <-> m n <> None).
  { intros n. unfold rput. destruct (String.eqb_spec n c) as [->|_]; [|tauto]. split; congruence. }
  split; [auto|split].
  - intros n. now rewrite Dom.
  - intros n rb' p' H. unfold well_read. rewrite Dom. unfold rput in H. destruct (String.eqb_spec n c) as [->|_].
    + injection H as <- <-. auto.
    + apply C. exact H.
Qed.
Lemma joint_read x m m' names : ParseJoint to_k to_bound decode normalized x m = Ok m' -> read_ok m names -> read_ok m' names.
Proof.
  unfold ParseJoint. intros H R. binv H.
  destruct (first_kid (x_kids x) "child") as [xc|]; [|discriminate]. binv H. destruct x4 as [rb p0].
  unfold r_at, lookup_or_throw in E1, E3. destruct (m x1) as [[rp pp]|] eqn:Ep; [|discriminate].
  destruct (m x3) as [[rb1 p1]|] eqn:Ec; [|discriminate]. injection E3 as -> ->. binv H.
  pose proof (origin_rigid _ _ E3) as Rg. destruct R as (RA & RB & RC). destruct (RC _ _ _ Ec) as (W1 & W2 & W3 & W4 & W5).
  assert (WR : forall j, well_read m x3 (rb_with_T x4 (rb_with_joint j rb)) x1).
  { intros j. unfold well_read. cbn. split; [auto|split; [right; congruence|auto]]. }
  destruct (_ || _ || _).
  - binv H. injection H as <-. eapply put_read_ok; [exact Ec|apply WR|split; auto].
  - destruct (String.eqb _ "fixed"); [injection H as <-; eapply put_read_ok; [exact Ec|apply WR|split; auto]|].
    destruct (String.eqb _ "floating"); [discriminate|]. destruct (String.eqb _ "planar"); [discriminate|]. injection H as <-. split; auto.
Qed.
Lemma joints_read l names : forall m m', ParseJoints to_k to_bound decode normalized l m = Ok m' -> read_ok m names -> read_ok m' names.
Proof.
  induction l as [|x t IH]; cbn [ParseJoints]; intros m m' H R; [injection H as <-; auto|]. binv H. eauto using joint_read.
Qed.
Lemma document_read path doc name m names : read_document to_k to_bound decode normalized join path doc = Ok (name, m, names) -> read_ok m names.
Proof.
  unfold read_document. intros H. binv H. destruct x2 as [m0 ns]. binv H. injection H as <- <- <-.
  eapply joints_read; eauto. eapply links_read_ok; eauto.
Qed.
Lemma read_links_ok m names : read_ok m names -> ~ In ""%string names -> links_ok m names /\
  forall n, In n names -> rigid (rb_T (link m n)) /\ (klt k1 k0 = false -> klt (imass (rb_inertia (link m n))) k0 = false) /\ isym (rb_inertia (link m n)).
Proof.
  intros (A & B & C) N. split; [constructor; auto|].
  - intros n X. apply B in X. apply (C n _ _ (some_link m n X)).
  - intros n X. apply B in X. destruct (C n _ _ (some_link m n X)) as (_ & [P|P] & _); auto. right. now apply B.
  - intros n X. apply B in X. destruct (C n _ _ (some_link m n X)) as (_ & _ & R & M & Y). auto.
Qed.
Lemma c34_document path doc name m names : read_document to_k to_bound decode normalized join path doc = Ok (name, m, names) ->
  ~ In ""%string names -> links_ok m names /\
  forall n, In n names -> rigid (rb_T (link m n)) /\ (klt k1 k0 = false -> klt (imass (rb_inertia (link m n))) k0 = false) /\ isym (rb_inertia (link m n)).
Proof. intros H. apply read_links_ok. eapply document_read; eauto. Qed.
End Read.

(** * From the links *)
Lemma sort_tree (m : rmap) names root : links_ok m names -> first_root m names root ->
  exists t, sort_links m names = Ok (root :: t) /\ tree m root t /\ (forall n, In n (root :: t) <-> below m root n) /\ incl (root :: t) names.
Proof.
  intros OK R. pose proof R as (a & b & E & Rp & F).
  assert (Rin : In root names) by (rewrite E; apply in_or_app; right; now left).
  destruct (dfs_root m names root OK Rin Rp) as (t & Et & Nt & It & Pt).
  assert (Inc : incl (root :: t) names).
  { intros x X. apply It in X. induction X; auto. eapply some_in; eauto. }
  exists t. split; [|split; [|split; auto]].
  - destruct (order m names root OK R) as (t' & E' & _). rewrite E'. f_equal.
    unfold sort_links in E'. destruct (find_root m names) as [[r|]| |] eqn:Fr; try discriminate. cbn [bind] in E'.
    assert (find_root m names = Ok (Some root)).
    { rewrite E. apply find_root_spec; auto. rewrite <- E. intros n. apply (proj1 (lk_in _ _ OK n)). }
    rewrite H in Fr. injection Fr as <-. congruence.
  - constructor; auto.
    + intros n X. apply (lk_in _ _ OK). auto.
    + intros n X. apply (lk_name _ _ OK). auto.
    + intros X. apply (lk_nonempty _ _ OK). auto.
Qed.

Lemma root_mass (m : rmap) root t ab ab' : tree m root t -> AddLinks m (fun _ => None) (root :: t) ab = Ok ab' -> klt (imass (rb_inertia (link m root))) k0 = false.
Proof.
  intros Tr H. cbn [AddLinks] in H. binv H. destruct x as [a i]. unfold AddLink, r_at in E.
  rewrite (some_link m root (tr_in _ _ _ Tr root (or_introl eq_refl))), (tr_root _ _ _ Tr) in E. cbn [lookup_or_throw bind String.eqb] in E.
  unfold set_T_base, set_inertia_base in E. cbn [called bind] in E. destruct (klt _ _); [discriminate|reflexivity].
Qed.

Lemma assembled (m : rmap) names root simplify name mem ab : links_ok m names -> first_root m names root ->
  assemble simplify m names (body_new name mem) = Ok ab ->
  exists t m' l ids, sort_links m names = Ok (root :: t) /\ tree m root t /\ (forall n, In n (root :: t) <-> below m root n) /\
    steps root m t m' l /\ (simplify = false -> m' = m /\ l = t) /\
    (simplify = true -> Forall (moving m') l /\ forall n, In n l <-> In n t /\ moving m n) /\
    tree m' root l /\ so_far solve pinv m' root name mem l ids ab.
Proof.
  intros OK R H. destruct (sort_tree m names root OK R) as (t & Es & Tr & It & Inc).
  unfold assemble in H. rewrite Es in H. cbn [bind] in H. destruct simplify.
  - binv H. destruct x as [m' l0]. unfold merge_fixed in E. binv E. destruct x as [m1 l]. injection E as <- <-.
    destruct (merge_steps root t m nil m1 l Tr (Forall_nil _) E0) as (St & Mv & Kp). cbn [app] in *.
    destruct (steps_keep _ _ _ _ _ St Tr) as (Tr' & I' & J').
    destruct (add_links solve pinv m1 root name mem l Tr' (root_mass _ _ _ _ _ Tr' H)) as (ab' & ids & E' & SF).
    rewrite H in E'. injection E' as <-.
    exists t, m1, l, ids. repeat (split; [assumption || discriminate|]). split; [intros _; split; [exact Mv|]|auto].
    intros n. split; [|intros [X Y]; apply Kp; auto]. intros X. split; [auto|]. rewrite Forall_forall in Mv. specialize (Mv n X).
    unfold moving, fixed_joint in *. now rewrite <- J' by (right; auto).
  - cbn [bind] in H.
    destruct (add_links solve pinv m root name mem t Tr (root_mass _ _ _ _ _ Tr H)) as (ab' & ids & E' & SF).
    rewrite H in E'. injection E' as <-.
    exists t, m, t, ids. split; [assumption|]. split; [assumption|]. split; [assumption|]. split; [constructor|]. split; [auto|]. split; [discriminate|auto].
Qed.

Lemma c34_accepts (m : rmap) names root simplify name mem : links_ok m names -> first_root m names root -> masses_add ->
  (forall n, below m root n -> klt (imass (rb_inertia (link m n))) k0 = false) ->
  exists ab, assemble simplify m names (body_new name mem) = Ok ab.
Proof.
  intros OK R Add Ms. destruct (sort_tree m names root OK R) as (t & Es & Tr & It & Inc).
  assert (Ms' : forall n, In n (root :: t) -> klt (imass (rb_inertia (link m n))) k0 = false) by (intros n X; apply Ms, It, X).
  unfold assemble. rewrite Es. cbn [bind]. destruct simplify.
  - destruct (merge_ok root Add t m nil Tr Ms') as ([m1 l] & Em). unfold merge_fixed. rewrite Em. cbn [bind].
    destruct (merge_steps root t m nil m1 l Tr (Forall_nil _) Em) as (St & _). cbn [app] in St.
    destruct (steps_keep _ _ _ _ _ St Tr) as (Tr' & _).
    destruct (add_links solve pinv m1 root name mem l Tr') as (ab' & ids & E' & SF); [|eauto].
    clear - St Add Ms' Tr. induction St as [|m d n t m1 m2 l M St IH]; [apply Ms'; now left|].
    apply IH; [exact (s_tree _ _ _ _ _ _ Tr M)|]. intros x X.
    destruct (s_link _ _ _ _ _ _ Tr M x X) as (_ & _ & _ & -> & _).
    assert (An : In n (root :: d ++ n :: t)) by (right; apply in_or_app; right; now left).
    pose proof (s_palive _ _ _ _ _ _ M) as Pal. apply (s_alive _ _ _ _ _ Tr) in Pal as [Pal _].
    destruct (String.eqb x _); [cbn [imass iadd iact]; apply Add; auto|]. apply Ms'. apply (s_alive _ _ _ _ _ Tr) in X. tauto.
  - cbn [bind]. destruct (add_links solve pinv m root name mem t Tr) as (ab' & ids & E' & SF); [|eauto]. apply Ms'. now left.
Qed.

Lemma by_position {A B} (f : A -> B) (g : string -> B) (d : A) (la : list A) (l : list string) : List.length la = List.length l ->
  (forall i n, position l i n -> f (nth i la d) = g n) -> map f la = map g l.
Proof.
  revert l. induction la as [|a la IH]; intros [|n l] H P; try discriminate; [reflexivity|]. cbn. f_equal.
  - apply (P 0 n eq_refl).
  - apply IH; [now injection H|]. intros i x X. apply (P (Datatypes.S i) x X).
Qed.

Section Poses.
Context {L : ScalLaws S} {Q : EqSound S}.
Lemma pose_of (m m' : rmap) root t l ids name mem ab qs i n : steps root m t m' l -> tree m root t -> tree m' root l ->
  so_far solve pinv m' root name mem l ids ab -> position l i n ->
  exists ab2 T, set_q (map qs l) ab = Ret ab2 tt /\ outcome (q_T_to_world (Z.of_nat i) ab2) = Ok T /\ placed m root qs n T.
Proof.
  intros St Tr Tr' SF Hp. pose proof (sf_made _ _ _ _ _ _ _ _ _ SF) as MO. pose proof (sf_tree _ _ _ _ _ _ _ _ _ SF) as T.
  pose proof (mk_dof _ _ _ _ MO) as Hd.
  assert (W : wfc ab). { destruct (sf_cache _ _ _ _ _ _ _ _ _ SF) as (c & Ec). exists (all_clear c). split; auto. apply inv_all_clear. }
  assert (E2 : exists ab2, set_q (map qs l) ab = Ret ab2 tt /\ ab_dof ab2 = ab_dof ab /\ ab_rbs ab2 = ab_rbs ab /\ ab_Tbase ab2 = ab_Tbase ab /\ ab_q ab2 = map qs l).
  { unfold set_q. rewrite map_length, <- Hd, Nat.eqb_refl, (tk_q _ T), Nat.eqb_refl. cbn [negb].
    destruct (veqb (ab_q ab) (map qs l)) eqn:V.
    - exists ab. apply veqb_sound in V. auto.
    - eexists. split; [reflexivity|]. cbn. auto. }
  destruct E2 as (ab2 & E & D & Rb & Tb & Eq). exists ab2, (twv ab2 i). split; [exact E|].
  pose proof (tree_set_q _ _ _ T E) as T2. pose proof (inv_set_q _ _ _ W E) as W2.
  assert (Li : i < List.length l) by (apply nth_error_Some; unfold position in Hp; congruence).
  split.
  - rewrite (out_Tw ab2 T2 W2), idx_nat by (rewrite D, Hd; auto). reflexivity.
  - apply (steps_placed_iff _ _ _ _ _ qs St Tr n (twv ab2 i)); [right; eapply nth_error_In; exact Hp|].
    eapply (twv_placed m' root l ab qs Tr' T MO); eauto.
Qed.
Lemma names_of (m : rmap) root l ab : tree m root l -> tree_ok ab -> made_of m root l ab -> link_names ab = l.
Proof.
  intros Tr T MO. unfold link_names. rewrite <- (map_id l). apply (by_position rb_name (fun n => n) rb_default).
  - rewrite (tk_rbs _ T). apply MO.
  - intros i n Hp. destruct (mk_links _ _ _ _ MO i n Hp) as (-> & _). apply (tr_name _ _ _ Tr). right. eapply nth_error_In; exact Hp.
Qed.
End Poses.

Section Whole.
Variables (m : rmap) (names : list string) (root : string) (simplify : bool) (name : string) (mem : @cache S) (ab : body).
Hypothesis OK : links_ok m names.
Hypothesis R : first_root m names root.
Hypothesis E : assemble simplify m names (body_new name mem) = Ok ab.

Lemma c34_links : NoDup (link_names ab) /\
  (forall n, In n (link_names ab) <-> n <> root /\ below m root n /\ (simplify = true -> ~ fixed_joint (link m n))) /\
  (forall i n, position (link_names ab) i n -> rb_joint (nth i (ab_rbs ab) rb_default) = rb_joint (link m n)) /\
  (simplify = false -> sort_links m names = Ok (root :: link_names ab) /\ made_of m root (link_names ab) ab) /\
  ab_name ab = name /\ built solve pinv ab.
Proof.
  destruct (assembled m names root simplify name mem ab OK R E) as (t & m' & l & ids & Es & Tr & It & St & Sf & Sk & Tr' & SF).
  rewrite (names_of m' root l ab Tr' (sf_tree _ _ _ _ _ _ _ _ _ SF) (sf_made _ _ _ _ _ _ _ _ _ SF)).
  destruct (steps_keep _ _ _ _ _ St Tr) as (_ & I' & J').
  pose proof (tr_distinct _ _ _ Tr') as ND'. inversion ND' as [|? ? Nr' Nl]; subst.
  pose proof (tr_distinct _ _ _ Tr) as ND. inversion ND as [|? ? Nr Nt]; subst.
  split; [auto|]. split; [|split; [|split; [|split]]].
  - intros n. rewrite <- It. cbn [In]. destruct simplify.
    + destruct (Sk eq_refl) as [_ K]. rewrite K. unfold moving. split.
      * intros [X Y]. repeat split; auto. intros ->. auto.
      * intros (N & [->|X] & Y); [congruence|auto].
    + destruct (Sf eq_refl) as [-> ->]. split; [intros X; repeat split; auto; [intros ->; auto|discriminate]|].
      intros (N & [->|X] & Y); [congruence|auto].
  - intros i n Hp. destruct (mk_links _ _ _ _ (sf_made _ _ _ _ _ _ _ _ _ SF) i n Hp) as (_ & _ & _ & _ & -> & _).
    apply J'. right. eapply nth_error_In; exact Hp.
  - intros S0. destruct (Sf S0) as [-> ->]. split; [exact Es|apply SF].
  - apply SF.
  - destruct (sf_hist _ _ _ _ _ _ _ _ _ SF) as (h & ab0 & H1 & H2 & H3). exists h, ab0, (ab_graphics ab). split; [auto|split; [|auto]].
    exists name, mem. exact H2.
Qed.
Lemma c34_poses {L : ScalLaws S} {Q : EqSound S} qs : ab_Tbase ab = rb_T (link m root) /\
  forall i n, position (link_names ab) i n -> exists ab2 T, set_q (map qs (link_names ab)) ab = Ret ab2 tt /\
    outcome (q_T_to_world (Z.of_nat i) ab2) = Ok T /\ placed m root qs n T.
Proof.
  destruct (assembled m names root simplify name mem ab OK R E) as (t & m' & l & ids & Es & Tr & It & St & Sf & Sk & Tr' & SF).
  rewrite (names_of m' root l ab Tr' (sf_tree _ _ _ _ _ _ _ _ _ SF) (sf_made _ _ _ _ _ _ _ _ _ SF)). split.
  - rewrite (mk_base _ _ _ _ (sf_made _ _ _ _ _ _ _ _ _ SF)).
    assert (P : placed m' root qs root (rb_T (link m root))) by (apply (steps_placed _ _ _ _ _ _ St Tr); [now left|constructor]).
    eapply placed_fun; [constructor|exact P].
  - intros i n Hp. eapply pose_of; eauto.
Qed.
Lemma c34_bodies {L : ScalLaws S} {P : PosLaws S} : simplify = true -> solid_links m root ->
  (exists g, rigid_group m root root g /\ same_body (ab_Ibase ab) (ab_graphics ab) m g) /\
  (forall i n, position (link_names ab) i n -> exists g, rigid_group m root n g /\
     same_body (rb_inertia (nth i (ab_rbs ab) rb_default)) (rb_graphics (nth i (ab_rbs ab) rb_default)) m g).
Proof.
  intros S1 Sl.
  destruct (assembled m names root simplify name mem ab OK R E) as (t & m' & l & ids & Es & Tr & It & St & Sf & Sk & Tr' & SF).
  rewrite (names_of m' root l ab Tr' (sf_tree _ _ _ _ _ _ _ _ _ SF) (sf_made _ _ _ _ _ _ _ _ _ SF)).
  destruct (Sk S1) as [Mv _].
  assert (Gd : forall y, In y (root :: t) -> good_link m y) by (intros y Y; apply Sl, It, Y).
  assert (G : forall a, In a (root :: l) -> exists g, rigid_group m root a g /\ group_is m g m' a).
  { intros a A. destruct (steps_group _ _ _ _ _ a St Tr Mv A Gd) as (g & [G1 G2] & G3). exists g. split; [split; [auto|]|auto].
    intros n T. now rewrite G2, It. }
  pose proof (sf_made _ _ _ _ _ _ _ _ _ SF) as MO. split.
  - destruct (G root (or_introl eq_refl)) as (g & G1 & G2). exists g. split; auto.
    rewrite (mk_graphics _ _ _ _ MO). destruct (mk_mass _ _ _ _ MO) as (_ & _ & M). rewrite M; auto.
    apply (steps_good _ _ _ _ _ St Tr Gd). now left.
  - intros i n Hp. destruct (G n) as (g & G1 & G2); [right; eapply nth_error_In; exact Hp|]. exists g. split; auto.
    destruct (mk_links _ _ _ _ MO i n Hp) as (_ & -> & _ & -> & _). exact G2.
Qed.
Context {L : ScalLaws S}.
Add Field kf2 : (@kfield S L).
Lemma c34_mass l : NoDup l -> (forall n, In n l <-> below m root n) ->
  kadd (imass (ab_Ibase ab)) (total (map (fun rb => imass (rb_inertia rb)) (ab_rbs ab))) = total (map (fun n => imass (rb_inertia (link m n))) l).
Proof.
  intros Nl Il.
  destruct (assembled m names root simplify name mem ab OK R E) as (t & m' & l' & ids & Es & Tr & It & St & Sf & Sk & Tr' & SF).
  pose proof (sf_made _ _ _ _ _ _ _ _ _ SF) as MO. pose proof (sf_tree _ _ _ _ _ _ _ _ _ SF) as T.
  assert (Pm : Permutation l (root :: t)).
  { apply NoDup_Permutation; auto. apply Tr. intros x. now rewrite Il, It. }
  assert (PT : forall a b, Permutation a b -> total a = total b).
  { intros a b. unfold total. induction 1; cbn; try congruence. ring. }
  rewrite (PT _ _ (Permutation_map _ Pm)), <- (steps_mass _ _ _ _ _ St Tr). cbn [map total fold_right].
  destruct (mk_mass _ _ _ _ MO) as (-> & _). f_equal. change (fold_right kadd k0) with (@total S). f_equal.
  apply (by_position _ _ rb_default); [rewrite (tk_rbs _ T); apply MO|].
  intros i n Hp. destruct (mk_links _ _ _ _ MO i n Hp) as (_ & _ & _ & -> & _). reflexivity.
Qed.
End Whole.
End UrdfTop.
