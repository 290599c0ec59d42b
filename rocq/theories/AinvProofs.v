(** InertiaInverseAba: values determined by the state. *)
From Coq Require Import List Arith ZArith Bool Lia.
From Verif Require Import Scalar Base Spatial SpecGeo Joint Body Kin InvDyn FwdDyn Opspace OpspaceAba Deriv Sim Ops Specs SpecCache SpecKin SpecDyn SpecAba SpatialProofs TreeProofs CacheProofs CacheOps WorldProofs AbaProofs.
Import ListNotations.

Section Ainv.
Context {S : Scal}.
Local Open Scope k_scope.
Variable ab : body.
Hypothesis T : tree_ok ab.
Let n := ab_dof ab.

Definition memb (j : nat) (l : list nat) : bool := existsb (Nat.eqb j) l.
Lemma memb_cons j a l : memb j (a :: l) = Nat.eqb j a || memb j l. Proof. reflexivity. Qed.
Lemma memb_in j l : memb j l = true <-> In j l.
Proof.
  unfold memb. rewrite existsb_exists. split; [intros (x & H & E); apply Nat.eqb_eq in E; subst; auto|].
  intros H. exists j. rewrite Nat.eqb_refl. auto.
Qed.
Lemma memb_sub i j : (i < n)%nat -> (j < n)%nat -> memb j (subt_at ab i) = ancb ab i j.
Proof.
  intros Hi Hj. rewrite (tk_sub_at _ T i Hi). apply eq_true_iff_eq. rewrite memb_in, filter_In, in_seq.
  unfold ancb. split; [tauto|]. intros H; split; auto. fold n. lia.
Qed.
Lemma sub_nodup i : (i < n)%nat -> NoDup (subt_at ab i).
Proof. intros Hi. rewrite (tk_sub_at _ T i Hi). apply NoDup_filter, seq_NoDup. Qed.
Lemma sub_lt i j : (i < n)%nat -> memb j (subt_at ab i) = true -> (j < n)%nat.
Proof. intros Hi H. apply memb_in in H. rewrite (tk_sub_at _ T i Hi), filter_In, in_seq in H. fold n in H. lia. Qed.
Lemma sub_ge i j : (i < n)%nat -> memb j (subt_at ab i) = true -> (i <= j)%nat.
Proof.
  intros Hi H. pose proof (sub_lt i j Hi H). rewrite memb_sub in H by auto. apply (ancb_le ab T) in H; auto.
Qed.

Definition xb (h : arr force) (d : arr K) (P : arr2 force) (i j : nat) : K :=
  ((if Nat.eqb i j then 1 else 0) - mdot (sub_at ab i) (P i j)) / d i.
Lemma upd2_at {A} (f : arr2 A) i j x a b : upd2 f i j x a b = if Nat.eqb a i && Nat.eqb b j then x else f a b.
Proof. reflexivity. Qed.
Lemma back_cols Tp h d i l : NoDup l -> (forall p, par ab i = Some p -> (p < i)%nat) -> forall X P,
  let '(X', P') := fold_left (ainv_back_inner ab Tp h d i) l (X, P) in
  (forall a b, X' a b = if Nat.eqb a i && memb b l then xb h d P i b else X a b) /\
  (forall a b, P' a b = match par ab i with
     | None => P a b
     | Some p => if Nat.eqb a p && memb b l then fadd (P p b) (fact (Tp i) (fadd (P i b) (fscale (xb h d P i b) (h i)))) else P a b
     end).
Proof.
  intros N Hp. induction l as [|j l IH]; intros X P.
  - cbn. split; intros; [rewrite andb_false_r; auto|]. destruct (par ab i); auto. rewrite andb_false_r; auto.
  - inversion N; subst. cbn [fold_left]. specialize (IH H2).
    set (st := ainv_back_inner ab Tp h d i (X, P) j). assert (ST : st = ainv_back_inner ab Tp h d i (X, P) j) by reflexivity. clearbody st.
    destruct st as [X1 P1]. specialize (IH X1 P1). destruct (fold_left _ l (X1, P1)) as [X' P']. destruct IH as [IX IP].
    assert (NJ : memb j l = false) by (destruct (memb j l) eqn:E; auto; apply memb_in in E; contradiction).
    unfold ainv_back_inner in ST. fold (xb h d P i j) in ST.
    assert (PI : forall b, P1 i b = P i b).
    { intros b. destruct (par ab i) as [p|] eqn:Q; inversion ST; subst; auto. rewrite upd2_at.
      specialize (Hp p eq_refl). destruct (Nat.eqb_spec i p); [lia|]. auto. }
    assert (XB : forall b, xb h d P1 i b = xb h d P i b) by (intros; unfold xb; rewrite PI; auto).
    split; intros a b; rewrite memb_cons.
    + rewrite IX, XB. destruct (Nat.eqb_spec a i); cbn [andb]; [|destruct (par ab i); inversion ST; rewrite upd2_at; destruct (Nat.eqb_spec a i); auto; contradiction].
      subst a. assert (X1 i b = if Nat.eqb b j then xb h d P i j else X i b).
      { destruct (par ab i); inversion ST; rewrite upd2_at, Nat.eqb_refl; auto. }
      rewrite H. destruct (Nat.eqb_spec b j); cbn [orb]; auto. subst. rewrite NJ. auto.
    + rewrite IP. destruct (par ab i) as [p|] eqn:Q; [|inversion ST; auto]. rewrite XB, PI.
      injection ST as EX EP. destruct (Nat.eqb_spec a p); cbn [andb].
      * subst a. assert (E1 : P1 p b = if Nat.eqb b j then fadd (P p j) (fact (Tp i) (fadd (P i j) (fscale (xb h d P i j) (h i)))) else P p b).
        { rewrite EP, upd2_at, Nat.eqb_refl. auto. }
        rewrite E1. destruct (Nat.eqb_spec b j); cbn [orb]; auto. subst. rewrite NJ. auto.
      * rewrite EP, upd2_at. destruct (Nat.eqb_spec a p); [contradiction|]. auto.
Qed.

(** Column [j] of the inverse, entries [i] on the path to [j]. *)
Definition Pg (j c : nat) (f acc : force) : force :=
  if ancb ab c j then fadd acc (fact (tpv ab c) (fadd f
     (fscale (((if Nat.eqb c j then 1 else 0) - mdot (sub_at ab c) f) / dv ab c) (hv ab c)))) else acc.
Definition Pv (j : nat) : nat -> force := sval ab (fun _ => fzero) (Pg j).
Definition Xb (j i : nat) : K := ((if Nat.eqb i j then 1 else 0) - mdot (sub_at ab i) (Pv j i)) / dv ab i.
Definition ilast (j i : nat) (a1 : motion) : motion * K :=
  let x := Xb j i - mdot a1 (hv ab i) / dv ab i in (madd a1 (mscale x (sub_at ab i)), x).
Definition ilastv (j : nat) : nat -> motion * K :=
  tval ab (fun i => ilast j i mzero) (fun i ap => ilast j i (madd mzero (mact (iso_inv (tpv ab i)) (fst ap)))).
Definition ainvv (i j : nat) : K := snd (ilastv j i).

Lemma ainv_bwd Tp abac Ia h d X : tp_ok ab Tp -> art_st ab abac n Ia h d ->
  let '(Ia', h', d', (X', P')) := for_down n (ainv_back_step ab Tp abac) (Ia, h, d, (X, fun _ _ => fzero)) in
  art_all ab Ia' h' d' /\
  (forall i j, (i < n)%nat -> (j < n)%nat -> X' i j = if ancb ab i j then Xb j i else X i j).
Proof.
  intros HT HI.
  pose proof (for_down_ind (fun m (s : arr i6 * arr force * arr K * (arr2 K * arr2 force)) => let '(Ia', h', d', (X', P')) := s in
     art_st ab abac m Ia' h' d' /\ (forall i j, (i < m)%nat -> (j < n)%nat -> P' i j = part ab (fun _ => fzero) (Pg j) m i) /\
     (forall i j, (i < n)%nat -> (j < n)%nat -> X' i j = if Nat.leb m i && ancb ab i j then Xb j i else X i j)) n
     (ainv_back_step ab Tp abac) (Ia, h, d, (X, fun _ _ => fzero))) as Z.
  destruct (for_down n _ _) as [[[Ia' h'] d'] [X' P']]. cbn beta iota in Z. destruct Z as (Z1 & _ & Z3).
  - split; auto. split.
    + intros i j Hi Hj. unfold n. rewrite part_end. auto.
    + intros i j Hi Hj. replace (Nat.leb n i) with false by (symmetry; apply Nat.leb_gt; lia). auto.
  - intros i [[[Ia1 h1] d1] [X1 P1]] Hi (Y1 & Y2 & Y3). unfold ainv_back_step.
    pose proof (art_st_step ab T abac Tp i Ia1 h1 d1 HT Hi Y1) as Z. destruct (aba_inertia ab Tp abac i (Ia1, h1, d1)) as [[Ia2 h2] d2].
    destruct Z as [Z (E1 & E2 & E3)].
    pose proof (back_cols Tp h2 d2 i (subt_at ab i) (sub_nodup i Hi) (fun p E => tree_par _ _ _ T Hi E) X1 P1) as C.
    destruct (fold_left _ (subt_at ab i) (X1, P1)) as [X2 P2]. destruct C as [C1 C2].
    assert (PI : forall j, (j < n)%nat -> P1 i j = Pv j i) by (intros j Hj; rewrite Y2 by (auto; lia); apply part_all; auto).
    assert (XI : forall j, (j < n)%nat -> xb h2 d2 P1 i j = Xb j i) by (intros j Hj; unfold xb, Xb; rewrite PI, E3 by auto; auto).
    split; [exact Z|]. split.
    + intros a j Ha Hj. rewrite C2. destruct (par ab i) as [p|] eqn:P.
      * rewrite memb_sub by auto. rewrite XI, PI by auto. destruct (Nat.eqb_spec a p); cbn [andb].
        { subst a. rewrite (part_par ab _ _ i p) by auto. unfold Pg at 1. fold (Pv j). rewrite (HT i p), E2 by auto.
          rewrite Y2 by (apply (tree_par _ _ _ T) in P; auto; lia). reflexivity. }
        { rewrite Y2 by (auto; lia). symmetry. apply part_other; auto. congruence. }
      * rewrite Y2 by (auto; lia). symmetry. apply part_other; auto. congruence.
    + intros a j Ha Hj. rewrite C1. destruct (Nat.eqb_spec a i); cbn [andb].
      * subst a. rewrite memb_sub by auto. rewrite Nat.leb_refl. cbn [andb]. rewrite XI by auto. destruct (ancb ab i j) eqn:An; auto.
        rewrite Y3 by auto. replace (Nat.leb (Datatypes.S i) i) with false by (symmetry; apply Nat.leb_gt; lia). auto.
      * rewrite Y3 by auto. replace (Nat.leb i a) with (Nat.leb (Datatypes.S i) a); auto.
        destruct (Nat.leb_spec (Datatypes.S i) a), (Nat.leb_spec i a); auto; lia.
  - split; [apply (art_st_end ab abac); auto|]. intros i j Hi Hj. rewrite Z3 by auto. auto.
Qed.

Definition la (Tp : arr iso) (A : arr2 motion) (i j : nat) : motion :=
  match par ab i with None => A i j | Some p => madd (A i j) (mact (iso_inv (Tp i)) (A p j)) end.
Definition lx Tp h d (X : arr2 K) (A : arr2 motion) (i j : nat) : K := X i j - mdot (la Tp A i j) (h i : force) / d i.
Lemma last_cols Tp h d i l : NoDup l -> (forall p, par ab i = Some p -> (p < i)%nat) -> forall X A,
  let '(X', A') := fold_left (ainv_last_inner ab Tp h d i) l (X, A) in
  (forall a b, X' a b = if Nat.eqb a i && memb b l then lx Tp h d X A i b
                        else if Nat.eqb b i && memb a l then lx Tp h d X A i a else X a b) /\
  (forall a b, A' a b = if Nat.eqb a i && memb b l then madd (la Tp A i b) (mscale (lx Tp h d X A i b) (sub_at ab i)) else A a b).
Proof.
  intros N Hp. induction l as [|j l IH]; intros X A.
  - cbn. split; intros; rewrite !andb_false_r; auto.
  - inversion N; subst. cbn [fold_left]. specialize (IH H2).
    set (st := ainv_last_inner ab Tp h d i (X, A) j). assert (ST : st = ainv_last_inner ab Tp h d i (X, A) j) by reflexivity. clearbody st.
    destruct st as [X1 A1]. specialize (IH X1 A1). destruct (fold_left _ l (X1, A1)) as [X' A']. destruct IH as [IX IA].
    assert (NJ : memb j l = false) by (destruct (memb j l) eqn:E; auto; apply memb_in in E; contradiction).
    unfold ainv_last_inner in ST. change (match par ab i with None => A i j | Some p => madd (A i j) (mact (iso_inv (Tp i)) (A p j)) end) with (la Tp A i j) in ST.
    change (X i j - mdot (la Tp A i j) (h i) / d i) with (lx Tp h d X A i j) in ST.
    cbn zeta in ST. injection ST as EX EA.
    assert (LA : forall b, b <> j -> la Tp A1 i b = la Tp A i b).
    { intros b Hb. unfold la. rewrite EA. destruct (par ab i) as [p|] eqn:Q; rewrite !upd2_at.
      - specialize (Hp p eq_refl). destruct (Nat.eqb_spec p i); [lia|]. destruct (Nat.eqb_spec b j); [contradiction|]. rewrite andb_false_r. auto.
      - destruct (Nat.eqb_spec b j); [contradiction|]. rewrite andb_false_r. auto. }
    assert (X1E : forall a b, X1 a b = if Nat.eqb a i && Nat.eqb b j then lx Tp h d X A i j else if Nat.eqb b i && Nat.eqb a j then lx Tp h d X A i j else X a b).
    { intros a b. rewrite EX. destruct (Nat.eqb_spec i j).
      - subst j. rewrite upd2_at. destruct (Nat.eqb_spec a i), (Nat.eqb_spec b i); auto.
      - rewrite !upd2_at. rewrite (andb_comm (Nat.eqb b i)). destruct (Nat.eqb_spec a i), (Nat.eqb_spec b j), (Nat.eqb_spec a j), (Nat.eqb_spec b i); cbn; auto; subst; try congruence. }
    assert (LX : forall b, b <> j -> lx Tp h d X1 A1 i b = lx Tp h d X A i b).
    { intros b Hb. unfold lx. rewrite LA, X1E by auto. rewrite Nat.eqb_refl. destruct (Nat.eqb_spec b j); [contradiction|]. cbn.
      destruct (Nat.eqb_spec b i), (Nat.eqb_spec i j); cbn; auto. subst. contradiction. }
    split; intros a b; rewrite !memb_cons.
    + rewrite IX, X1E. destruct (Nat.eqb_spec a i), (Nat.eqb_spec b i), (Nat.eqb_spec a j), (Nat.eqb_spec b j); cbn [andb orb]; subst; rewrite ?NJ, ?LX by auto; auto; try congruence;
      match goal with |- context [memb ?x l] => destruct (memb x l) eqn:M; rewrite ?LX by congruence; auto end.
    + rewrite IA, EA, upd2_at. destruct (Nat.eqb_spec a i), (Nat.eqb_spec b j); cbn [andb orb]; subst; rewrite ?NJ, ?LA, ?LX by auto; auto.
Qed.

Lemma ilastv_eq j i : (i < n)%nat -> ilastv j i = match par ab i with None => ilast j i mzero
  | Some p => ilast j i (madd mzero (mact (iso_inv (tpv ab i)) (fst (ilastv j p)))) end.
Proof. intros Hi. unfold ilastv at 1. rewrite tval_eq by auto. reflexivity. Qed.
Lemma ainv_fwd Tp h d X : tp_ok ab Tp -> (forall i, (i < n)%nat -> h i = hv ab i /\ d i = dv ab i) ->
  (forall i j, (i < n)%nat -> (j < n)%nat -> ancb ab i j = true -> X i j = Xb j i) ->
  let '(X', A') := for_up n (fun i st => fold_left (ainv_last_inner ab Tp h d i) (subt_at ab i) st) (X, fun _ _ => mzero) in
  forall i j, (i < n)%nat -> (j < n)%nat -> X' i j = if ancb ab i j then ainvv i j else if ancb ab j i then ainvv j i else X i j.
Proof.
  intros HT Hhd HX.
  pose proof (for_up_ind (fun m (s : arr2 K * arr2 motion) => let '(X', A') := s in
     (forall i j, (i < n)%nat -> (j < n)%nat -> A' i j = if Nat.ltb i m && ancb ab i j then fst (ilastv j i) else mzero) /\
     (forall i j, (i < n)%nat -> (j < n)%nat -> X' i j = if Nat.ltb i m && ancb ab i j then ainvv i j else
        if Nat.ltb j m && ancb ab j i then ainvv j i else X i j)) n
     (fun i st => fold_left (ainv_last_inner ab Tp h d i) (subt_at ab i) st) (X, fun _ _ => mzero)) as Z.
  destruct (for_up n _ _) as [X' A']. cbn beta iota in Z. destruct Z as [_ Z].
  - split; intros; auto.
  - intros i [X1 A1] Hi [Y1 Y2].
    pose proof (last_cols Tp h d i (subt_at ab i) (sub_nodup i Hi) (fun p E => tree_par _ _ _ T Hi E) X1 A1) as C.
    destruct (fold_left _ (subt_at ab i) (X1, A1)) as [X2 A2]. destruct C as [C1 C2].
    assert (L0 : Nat.ltb i i = false) by (apply Nat.ltb_ge; lia).
    assert (L1 : Nat.ltb i (Datatypes.S i) = true) by (apply Nat.ltb_lt; lia).
    assert (LL : forall j, (j <> i)%nat -> Nat.ltb j (Datatypes.S i) = Nat.ltb j i).
    { intros j Hj. destruct (Nat.ltb_spec j (Datatypes.S i)), (Nat.ltb_spec j i); auto; lia. }
    destruct (Hhd i Hi) as [EH ED].
    assert (LA : forall j, (j < n)%nat -> ancb ab i j = true -> ilastv j i = ilast j i (la Tp A1 i j) /\ lx Tp h d X1 A1 i j = ainvv i j).
    { intros j Hj An.
      assert (Q : ilastv j i = ilast j i (la Tp A1 i j)).
      { rewrite ilastv_eq by auto. unfold la. rewrite (Y1 i j), L0 by auto. cbn [andb]. destruct (par ab i) as [p|] eqn:P; auto.
        pose proof (tree_par _ _ _ T Hi P). rewrite (HT i p) by auto. rewrite Y1 by (auto; eapply Nat.lt_trans; eauto).
        replace (Nat.ltb p i) with true by (symmetry; apply Nat.ltb_lt; auto).
        replace (ancb ab p j) with true; [reflexivity|]. symmetry. apply (ancb_trans ab T p i j); auto.
        rewrite (ancb_step ab T), P by auto. rewrite (ancb_self ab T) by (eapply Nat.lt_trans; eauto). apply orb_true_r. }
      split; auto. unfold ainvv. rewrite Q. unfold ilast, lx. cbn [snd]. rewrite EH, ED. f_equal. rewrite Y2 by auto. rewrite L0. cbn [andb].
      destruct (Nat.ltb j i && ancb ab j i) eqn:B; [|apply HX; auto].
      apply andb_true_iff in B. destruct B as [B1 _]. apply Nat.ltb_lt in B1. apply (ancb_le ab T) in An; auto. lia. }
    split.
    + intros a j Ha Hj. rewrite C2. rewrite memb_sub by auto. destruct (Nat.eqb_spec a i).
      * subst a. rewrite L1. cbn [andb]. destruct (ancb ab i j) eqn:An.
        { destruct (LA j Hj An) as [Q1 Q2]. rewrite Q2. unfold ainvv. rewrite Q1. reflexivity. }
        { rewrite Y1, L0 by auto. auto. }
      * cbn [andb]. rewrite LL by auto. apply Y1; auto.
    + intros a j Ha Hj. rewrite C1, !memb_sub by auto. destruct (Nat.eqb_spec a i); cbn [andb].
      * subst a. rewrite L1. cbn [andb]. destruct (ancb ab i j) eqn:An; [apply LA; auto|].
        destruct (Nat.eqb_spec j i); cbn [andb].
        { subst. rewrite (ancb_self ab T) in An by auto. discriminate. }
        { rewrite LL by auto. rewrite Y2 by auto. rewrite L0. auto. }
      * rewrite (LL a) by auto. destruct (Nat.eqb_spec j i); cbn [andb].
        { subst j. rewrite L1. cbn [andb]. rewrite Y2 by auto. destruct (ancb ab i a) eqn:An.
          - replace (ancb ab a i) with false; [rewrite andb_false_r; apply LA; auto|].
            symmetry. destruct (ancb ab a i) eqn:An2; auto. apply (ancb_le ab T) in An; auto. apply (ancb_le ab T) in An2; auto. lia.
          - rewrite andb_false_r. auto. }
        { rewrite (LL j) by auto. apply Y2; auto. }
  - intros i j Hi Hj. rewrite Z by auto. replace (Nat.ltb i n) with true by (symmetry; apply Nat.ltb_lt; auto).
    replace (Nat.ltb j n) with true by (symmetry; apply Nat.ltb_lt; auto). auto.
Qed.

(** Entries of related links are those of the state. *)
Definition invi (c : cache) : Prop := is_Ainv (ca_aba c) = true -> forall i j, (i < n)%nat -> (j < n)%nat ->
  (ancb ab i j = true -> c_Ainv (ca_aba c) i j = ainvv i j /\ c_Ainv (ca_aba c) j i = ainvv i j).
Lemma ensure_Ainv_value c : inv ab c -> inva ab c ->
  inva ab (ensure_Ainv ab c) /\ (invi c -> invi (ensure_Ainv ab c)) /\ is_Ainv (ca_aba (ensure_Ainv ab c)) = true /\
  (forall i j, (i < n)%nat -> (j < n)%nat -> ancb ab i j = false -> ancb ab j i = false -> c_Ainv (ca_aba (ensure_Ainv ab c)) i j = c_Ainv (ca_aba c) i j).
Proof.
  intros H HI. unfold ensure_Ainv. destruct (is_Ainv (ca_aba c)) eqn:E; [auto|].
  destruct (has_child_ok ab c H) as (H1 & HT & A1). cbn zeta in *.
  set (c1 := if has_child ab then ensure_Tp ab c else c) in *. fold n.
  assert (EA : ca_aba c1 = ca_aba c) by (destruct A1 as [t ->]; reflexivity).
  set (Ia := if is_aba (ca_aba c1) then c_Ia (ca_aba c1) else for_up n (fun i a => upd a i (i6_of (inertia_at ab i))) (c_Ia (ca_aba c1))).
  assert (ST : art_st ab (is_aba (ca_aba c1)) n Ia (c_h (ca_aba c1)) (c_d (ca_aba c1))).
  { unfold Ia. rewrite EA. unfold inva in HI. destruct (is_aba (ca_aba c)); cbn; [apply HI; auto|]. apply art_start. intros; apply (for_up_fill n (fun i => i6_of (inertia_at ab i))); auto. }
  pose proof (ainv_bwd (c_Tp (ca_T c1)) (is_aba (ca_aba c1)) Ia (c_h (ca_aba c1)) (c_d (ca_aba c1)) (c_Ainv (ca_aba c1)) HT ST) as Y.
  destruct (for_down n _ _) as [[[Ia' h] d] [X P]]. destruct Y as [Y1 Y2].
  pose proof (ainv_fwd (c_Tp (ca_T c1)) h d X HT ltac:(intros i Hi; destruct (Y1 i Hi) as (_ & Q1 & Q2); auto)
    ltac:(intros i j Hi Hj An; rewrite Y2, An by auto; auto)) as Z.
  destruct (for_up n _ _) as [X' A']. cbn [ca_aba with_aba is_Ainv c_Ainv is_aba c_Ia c_h c_d]. split; [|split; [|split]].
  - intros _. exact Y1.
  - intros _ _ i j Hi Hj An. cbn [ca_aba with_aba c_Ainv]. split; [rewrite Z, An by auto; auto|].
    rewrite Z by auto. destruct (ancb ab j i) eqn:An2; [|rewrite An; auto].
    assert (i = j) by (apply (ancb_le ab T) in An; auto; apply (ancb_le ab T) in An2; auto; lia). subst. auto.
  - auto.
  - intros i j Hi Hj N1 N2. rewrite Z, N1, N2, Y2, N1 by auto. rewrite EA. auto.
Qed.
End Ainv.
