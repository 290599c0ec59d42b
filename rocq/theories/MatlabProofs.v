(** The MATLAB functions: the loop over the columns. *)
From Coq Require Import List Arith ZArith Bool Lia.
From Verif Require Import Scalar Base Spatial Joint Body Kin InvDyn FwdDyn Opspace OpspaceAba Deriv Sim Ops Control Ik Discrete Matlab Instances Specs SpecCache SpecKin SpecDyn SpecOps SpecDiscrete SpecMatlab TreeProofs CacheProofs CacheOps KinProofs OpsCache OpsApi DynApi.
Import ListNotations.

(** ** Contents of arrays *)
Lemma fold_mul l : forall a, fold_left Nat.mul l a = a * size_of l.
Proof. induction l as [|x l IH]; intros a; cbn; [lia|]. rewrite IH. unfold size_of. cbn. lia. Qed.
Lemma size_app a b : size_of (a ++ b) = size_of a * size_of b.
Proof. unfold size_of. induction a as [|x a IH]; cbn; [lia|]. rewrite IH. lia. Qed.
Lemma nth_concat {A} (d : A) r L : Forall (fun x => List.length x = r) L -> forall i j, i < r -> j < List.length L ->
  nth (i + r * j) (List.concat L) d = nth i (nth j L nil) d.
Proof.
  induction L as [|x L IH]; intros F i j Hi Hj; cbn in *; [lia|]. inversion F; subst. destruct j as [|j].
  - rewrite Nat.mul_0_r, Nat.add_0_r. apply app_nth1. auto.
  - rewrite app_nth2 by nia. replace (i + List.length x * Datatypes.S j - List.length x) with (i + List.length x * j) by nia.
    apply IH; auto. lia.
Qed.
Lemma length_concat {A} r (L : list (list A)) : Forall (fun x => List.length x = r) L -> List.length (List.concat L) = r * List.length L.
Proof. induction 1; cbn; [lia|]. rewrite app_length, IHForall. lia. Qed.
Lemma mat_rows {A} r c (f : arr2 A) : Forall (fun x => List.length x = c) (mat r c f).
Proof. apply Forall_forall. intros x Hx. apply in_map_iff in Hx. destruct Hx as (i & <- & _). apply vec_length. Qed.
Lemma mat_length {A} r c (f : arr2 A) : List.length (mat r c f) = r.
Proof. unfold mat. rewrite map_length, seq_length. auto. Qed.
Lemma nth_mat {A} r c (f : arr2 A) i j (d : A) : i < r -> j < c -> nth j (nth i (mat r c f) nil) d = f i j.
Proof.
  intros Hi Hj. unfold mat. change (map (fun i => map (f i) (seq 0 c)) (seq 0 r)) with (vec r (fun i => vec c (f i))).
  rewrite nth_vec by auto. apply nth_vec; auto.
Qed.

Section Flat.
Context {S : Scal}.
Lemma flat_length r c (A : lmat) : List.length (flat r c A) = r * c.
Proof. unfold flat. rewrite (length_concat r) by apply mat_rows. rewrite mat_length. auto. Qed.
Lemma flat_entry r c (A : lmat) i j : i < r -> j < c -> coef (flat r c A) (i + r * j) = entry A i j.
Proof.
  intros Hi Hj. unfold flat, coef. rewrite nth_concat by (rewrite ?mat_length; auto; apply mat_rows). rewrite nth_mat by auto. reflexivity.
Qed.
Lemma hess_blocks n (H : list (list motion)) : Forall (fun x => List.length x = n * n)
  (map (fun k => List.concat (mat n n (fun j i => nth k (m6 (nth j (nth i H nil) mzero)) k0))) (seq 0 6)).
Proof.
  apply Forall_forall. intros x Hx. apply in_map_iff in Hx. destruct Hx as (k & <- & _).
  rewrite (length_concat n) by apply mat_rows. rewrite mat_length. auto.
Qed.
Lemma flat_hess_length n H : List.length (flat_hess n H) = n * n * 6.
Proof. unfold flat_hess. rewrite (length_concat (n * n)) by apply hess_blocks. rewrite map_length, seq_length. auto. Qed.
Lemma m6_six m k : k < 6 -> nth k (m6 m) k0 = six_of m k.
Proof. intros H. do 6 (destruct k as [|k]; [reflexivity|]). lia. Qed.
Lemma flat_hess_entry n H i j k : i < n -> j < n -> k < 6 -> coef (flat_hess n H) (i + n * j + n * n * k) = six_of (nth j (nth i H nil) mzero) k.
Proof.
  intros Hi Hj Hk. unfold flat_hess, coef. rewrite nth_concat; [|apply hess_blocks|nia|rewrite map_length, seq_length; auto].
  change (map ?f (seq 0 6)) with (vec 6 f). rewrite nth_vec by auto.
  rewrite nth_concat by (rewrite ?mat_length; auto; apply mat_rows). rewrite nth_mat by auto. apply m6_six; auto.
Qed.
Lemma jac_flat_length (J : list motion) : List.length (List.concat (map m6 J)) = 6 * List.length J.
Proof. rewrite (length_concat 6), map_length; auto. apply Forall_forall. intros x Hx. apply in_map_iff in Hx. destruct Hx as (m & <- & _). reflexivity. Qed.
Lemma jac_flat_entry (J : list motion) k j : k < 6 -> j < List.length J -> coef (List.concat (map m6 J)) (k + 6 * j) = six_of (col J j) k.
Proof.
  intros Hk Hj. unfold coef. rewrite nth_concat; [| |auto|rewrite map_length; auto].
  - rewrite (nth_indep _ nil (m6 mzero)) by (rewrite map_length; auto). rewrite map_nth. apply m6_six; auto.
  - apply Forall_forall. intros x Hx. apply in_map_iff in Hx. destruct Hx as (m & <- & _). reflexivity.
Qed.
Lemma jac_rows_matrix (J : list motion) : jac_rows J = as_matrix J.
Proof. reflexivity. Qed.

(** ** Columns *)
Lemma columns_cols n w (a : marr) : columns n w a -> m_cols a = w.
Proof. intros (_ & d & E & H). unfold m_cols. rewrite E. cbn [tl]. rewrite fold_mul. lia. Qed.
Lemma columns_rows n w (a : marr) : columns n w a -> rows_are n a = true.
Proof. intros (_ & d & E & _). unfold rows_are. rewrite E. apply Nat.eqb_refl. Qed.
Lemma columns_length n w (a : marr) : columns n w a -> List.length (m_data a) = n * w.
Proof. intros (H & d & E & W). rewrite H, E. unfold size_of in *. cbn. rewrite W. auto. Qed.
Lemma firstn_skipn_vec n k (l : list K) : k + n <= List.length l -> firstn n (skipn k l) = vec n (fun j => coef l (j + k)).
Proof.
  intros H. apply (nth_ext _ _ k0 k0).
  - rewrite vec_length, firstn_length, skipn_length. lia.
  - intros j Hj. rewrite firstn_length, skipn_length in Hj. rewrite nth_vec by lia.
    assert (X : forall (l : list K) m j, j < m -> nth j (firstn m l) k0 = nth j l k0).
    { clear. induction l as [|x l IH]; intros m j Hj; destruct m; try lia; destruct j; cbn; auto. apply IH; lia. }
    rewrite X by lia. assert (Y : forall k (l : list K) j, nth j (skipn k l) k0 = nth (j + k) l k0).
    { clear. induction k as [|k IH]; intros l j; [rewrite Nat.add_0_r; reflexivity|]. destruct l; cbn; [destruct (j + Datatypes.S k), j; auto|].
      rewrite IH. rewrite Nat.add_succ_r. reflexivity. }
    rewrite Y. reflexivity.
Qed.
Lemma m_col_ok n w (a : marr) i : columns n w a -> i < w -> m_col n a i = Ok (column n a i).
Proof.
  intros C Hi. unfold m_col. pose proof (columns_length _ _ _ C) as X. rewrite firstn_skipn_vec by nia.
  rewrite vec_length, Nat.eqb_refl. reflexivity.
Qed.
Lemma column_length n (a : marr) i : List.length (column n a i) = n.
Proof. apply vec_length. Qed.

(** ** The loop *)
Section Loop.
Variable call : nat -> body -> res (body * list K).
Variable P : nat -> body -> Prop.
Variable V : nat -> list K -> Prop.
Variables sz w : nat.
Hypothesis H : forall i ab, i < w -> P i ab -> exists ab' x, call i ab = Ok (ab', x) /\ P (Datatypes.S i) ab' /\ List.length x = sz /\ V i x.
Lemma loop_from m : forall k ab, k + m <= w -> P k ab -> exists ab' d, mex_loop (seq k m) call ab = Ok (ab', d) /\ P (k + m) ab' /\
  List.length d = sz * m /\ forall i, i < m -> V (k + i) (firstn sz (skipn (sz * i) d)).
Proof.
  induction m as [|m IH]; intros k ab Hk Hp; cbn [seq mex_loop].
  - exists ab, nil. rewrite Nat.add_0_r, Nat.mul_0_r. repeat split; auto. intros i Hi. lia.
  - destruct (H k ab ltac:(lia) Hp) as (ab1 & x & E & P1 & Lx & Vx). destruct (IH (Datatypes.S k) ab1 ltac:(lia) P1) as (ab2 & d & E2 & P2 & Ld & Vd).
    exists ab2, (x ++ d). rewrite E. cbn [bind]. rewrite E2. cbn [bind]. split; [reflexivity|]. rewrite Nat.add_succ_r. split; [exact P2|].
    split; [rewrite app_length; lia|]. intros i Hi. destruct i as [|i].
    + rewrite Nat.mul_0_r, Nat.add_0_r. cbn [skipn]. rewrite firstn_app, Lx, Nat.sub_diag, firstn_O, app_nil_r, <- Lx, firstn_all. exact Vx.
    + rewrite skipn_app. replace (skipn (sz * Datatypes.S i) x) with (@nil K) by (symmetry; apply skipn_all2; nia). cbn [app].
      replace (sz * Datatypes.S i - List.length x) with (sz * i) by nia. replace (k + Datatypes.S i) with (Datatypes.S k + i) by lia. apply Vd. lia.
Qed.
Lemma loop_all ab : P 0 ab -> exists ab' d, mex_loop (seq 0 w) call ab = Ok (ab', d) /\ P w ab' /\ List.length d = sz * w /\
  forall i, i < w -> exists x, V i x /\ List.length x = sz /\ forall k, k < sz -> coef d (k + sz * i) = coef x k.
Proof.
  intros Hp. destruct (loop_from w 0 ab ltac:(lia) Hp) as (ab' & d & E & P' & Ld & Vd). exists ab', d. repeat split; auto.
  intros i Hi. exists (firstn sz (skipn (sz * i) d)). split; [apply (Vd i Hi)|]. rewrite firstn_skipn_vec by nia. split; [apply vec_length|].
  intros k Hk. unfold coef at 2. rewrite nth_vec by auto. reflexivity.
Qed.
End Loop.
End Flat.

(** ** Robots on their way through the columns *)
Section Way.
Context {S : Scal}.
Context {AC : AddComm S} {ES : EqSound S}.
Variable solve : list (list K) -> list K -> list K.
Variable pinv : list (list K) -> K -> list (list K) * bool.
Variable one : option K.
Variable ab : body.
Record way (q dq : list K) (b : body) : Prop := {
  wy_tree : tree_ok b; wy_wfc : wfc b; wy_moved : moved_to ab q dq b; wy_wop : wop solve pinv one b }.

Lemma moved_fields q dq b : tree_ok b -> moved_to ab q dq b -> ab_dof b = ab_dof ab /\ ab_q b = q /\ ab_dq b = dq /\ ab_rbs b = ab_rbs ab /\ ab_loads b = ab_loads ab /\
  ab_Tbase b = ab_Tbase ab /\ ab_anc b = ab_anc ab.
Proof.
  intros T M. destruct (tk_cache _ T) as (mem & _). pose proof (M mem) as H. unfold cold, set_cache, restart in H.
  inversion H. repeat split; auto.
Qed.
Lemma way_fields q dq b : way q dq b -> ab_dof b = ab_dof ab /\ ab_q b = q /\ ab_dq b = dq /\ ab_rbs b = ab_rbs ab /\ ab_loads b = ab_loads ab /\
  ab_Tbase b = ab_Tbase ab /\ ab_anc b = ab_anc ab.
Proof. intros W. apply moved_fields; [apply (wy_tree _ _ _ W)|apply (wy_moved _ _ _ W)]. Qed.
Lemma way_start : tree_ok ab -> wfc ab -> wop solve pinv one ab -> way (ab_q ab) (ab_dq ab) ab.
Proof. constructor; auto. intros mem. reflexivity. Qed.
Lemma moved_set_q q dq b q' : tree_ok b -> moved_to ab q dq b -> List.length q' = ab_dof ab -> exists b', set_q q' b = Ret b' tt /\ moved_to ab q' dq b'.
Proof.
  intros T M Hq. destruct (moved_fields _ _ _ T M) as (Fd & Fq & _).
  unfold set_q. rewrite Hq, Fd, Nat.eqb_refl. cbn [negb]. rewrite (tk_q _ T), Fd, Nat.eqb_refl. cbn [negb].
  destruct (veqb (ab_q b) q') eqn:E.
  - apply veqb_sound in E. exists b. split; [reflexivity|]. rewrite <- E, Fq. exact M.
  - eexists. split; [reflexivity|]. intros mem. pose proof (M mem) as Y. unfold cold, set_cache, restart in *. cbn in *. inversion Y. reflexivity.
Qed.
Lemma moved_set_dq q dq b dq' : tree_ok b -> moved_to ab q dq b -> List.length dq' = ab_dof ab -> exists b', set_dq dq' b = Ret b' tt /\ moved_to ab q dq' b'.
Proof.
  intros T M Hq. destruct (moved_fields _ _ _ T M) as (Fd & _ & Fq & _).
  unfold set_dq. rewrite Hq, Fd, Nat.eqb_refl. cbn [negb]. rewrite (tk_dq _ T), Fd, Nat.eqb_refl. cbn [negb].
  destruct (veqb (ab_dq b) dq') eqn:E.
  - apply veqb_sound in E. exists b. split; [reflexivity|]. rewrite <- E, Fq. exact M.
  - eexists. split; [reflexivity|]. intros mem. pose proof (M mem) as Y. unfold cold, set_cache, restart in *. cbn in *. inversion Y. reflexivity.
Qed.
Lemma way_set_q q dq b q' : way q dq b -> List.length q' = ab_dof ab -> exists b', called (set_q q' b) = Ok b' /\ way q' dq b'.
Proof.
  intros [T V M O] Hq. destruct (moved_set_q q dq b q' T M Hq) as (b' & E & M'). exists b'. rewrite E. split; [reflexivity|]. constructor; auto.
  - eapply tree_set_q; eauto.
  - eapply inv_set_q; eauto.
  - eapply wop_set_q; eauto.
Qed.
Lemma way_set_dq q dq b dq' : way q dq b -> List.length dq' = ab_dof ab -> exists b', called (set_dq dq' b) = Ok b' /\ way q dq' b'.
Proof.
  intros [T V M O] Hq. destruct (moved_set_dq q dq b dq' T M Hq) as (b' & E & M'). exists b'. rewrite E. split; [reflexivity|]. constructor; auto.
  - eapply tree_set_dq; eauto.
  - eapply inv_set_dq; eauto.
  - eapply wop_set_dq; eauto.
Qed.
Lemma way_ask q dq b k b' x : way q dq b -> oone one (OAsk k) -> ask solve pinv k b = Ok (b', x) -> way q dq b'.
Proof.
  intros [T V M O] Ho E. destruct (ask_frame solve pinv k b b' x E) as (c & Hc). constructor.
  - rewrite Hc. apply tree_set_cache; auto.
  - eapply ask_inv; eauto.
  - intros mem. rewrite <- (M mem), Hc. reflexivity.
  - exact (ask_op solve pinv one k b b' x T V O Ho E).
Qed.
Lemma way_fresh q dq b k mem : way q dq b -> outcome (ask solve pinv k b) = outcome (ask solve pinv k (cold b mem)) ->
  outcome (ask solve pinv k b) = outcome (ask solve pinv k (restart ab q dq mem)).
Proof. intros W E. rewrite E, (wy_moved _ _ _ W mem). reflexivity. Qed.

(** A query asked through its C++ function. *)
Lemma asked {A} (f : A -> answer) (r : res (body * A)) x : outcome (wrap f r) = Ok x -> exists b' y, r = Ok (b', y) /\ x = f y.
Proof. destruct r as [[b' y]| |]; cbn; intros H; inversion H. eauto. Qed.

Lemma asked_ok {A} q dq b k (f : A -> answer) (r : body -> res (body * A)) y : way q dq b -> oone one (OAsk k) ->
  (forall b, ask solve pinv k b = wrap f (r b)) -> (forall mem, outcome (ask solve pinv k b) = outcome (ask solve pinv k (cold b mem))) ->
  outcome (r b) = Ok y -> exists b', r b = Ok (b', y) /\ way q dq b' /\ forall mem, outcome (ask solve pinv k (restart ab q dq mem)) = Ok (f y).
Proof.
  intros W Ho Ek Fr Ey. destruct (r b) as [[b' y']| |] eqn:Er; cbn in Ey; try discriminate. inversion Ey; subst y'. exists b'. split; [reflexivity|]. split.
  - apply (way_ask q dq b k b' (f y)); auto. rewrite Ek, Er. reflexivity.
  - intros mem. rewrite <- (way_fresh q dq b k mem W (Fr mem)), Ek, Er. reflexivity.
Qed.

(** All functions that go through the columns of Q: [dq i] is the velocity during the
    visit of column [i], [k i] what is asked there, [fl] how it is written down. *)
Section Over.
Variables (Q : marr) (w : nat) (dims : list nat) (sz : nat).
Variable call : nat -> body -> res (body * list K).
Variable dqs : nat -> list K.
Variable ok : nat -> list K -> Prop.
Hypothesis CQ : columns (ab_dof ab) w Q.
Hypothesis SZ : size_of dims = sz.
Hypothesis C : forall i b, i < w -> way (column (ab_dof ab) Q i) (match i with 0 => ab_dq ab | Datatypes.S j => dqs j end) b ->
  exists b' x, call i b = Ok (b', x) /\ way (column (ab_dof ab) Q i) (dqs i) b' /\ List.length x = sz /\ ok i x.
Lemma over_ok : way (ab_q ab) (ab_dq ab) ab ->
  exists ab' out, mex_over Q dims call ab = Ok (ab', Some out) /\ blocks dims sz w Q out /\
    moved_to ab (last_column (ab_dof ab) w Q (ab_q ab)) (match w with 0 => ab_dq ab | Datatypes.S j => dqs j end) ab' /\
    forall i, i < w -> exists x, ok i x /\ forall k, k < sz -> block_entry sz out i k = coef x k.
Proof.
  intros W0. unfold mex_over.
  destruct (loop_all (fun i b => bind (m_col (ab_dof b) Q i) (fun q => bind (called (set_q q b)) (call i)))
     (fun i b => way (last_column (ab_dof ab) i Q (ab_q ab)) (match i with 0 => ab_dq ab | Datatypes.S j => dqs j end) b) ok sz w) with (ab := ab)
     as (ab' & d & E & P & Ld & Vd).
  - intros i b Hi Hp. destruct (way_fields _ _ _ Hp) as (Fd & _). rewrite Fd, (m_col_ok _ w) by auto. cbn [bind].
    destruct (way_set_q _ _ _ (column (ab_dof ab) Q i) Hp (column_length _ _ _)) as (b1 & E1 & W1). rewrite E1. cbn [bind].
    destruct (C i b1 Hi W1) as (b2 & x & E2 & W2 & Lx & Ox). exists b2, x. split; [exact E2|]. split; [exact W2|]. split; auto.
  - exact W0.
  - rewrite (columns_cols _ _ _ CQ), E. cbn [bind]. exists ab', (MA (dims ++ tl (m_dim Q)) d). split; [reflexivity|]. split.
    { split; [reflexivity|]. cbn. split; [|exact Ld]. unfold whole. cbn. rewrite size_app, Ld, SZ. destruct CQ as (_ & e & Eq & Hw). rewrite Eq. cbn [tl]. rewrite Hw. reflexivity. }
    split; [exact (wy_moved _ _ _ P)|]. intros i Hi. destruct (Vd i Hi) as (x & Ox & _ & Hx). exists x. split; auto.
Qed.
End Over.
End Way.
