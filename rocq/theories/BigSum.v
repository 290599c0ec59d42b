(** Finite sums over a commutative monoid. *)
From Coq Require Import List Arith Bool Lia.
From Verif Require Import Scalar Base Spatial Body InvDyn SpatialProofs.

Section BigSum.
Context {A : Type} (add : A -> A -> A) (zero : A).
Fixpoint bsum (n : nat) (f : nat -> A) : A :=
  match n with O => zero | Datatypes.S m => add (bsum m f) (f m) end.

Hypothesis addC : forall a b, add a b = add b a.
Hypothesis addA : forall a b c, add a (add b c) = add (add a b) c.
Hypothesis add0 : forall a, add zero a = a.

Lemma add0r a : add a zero = a.
Proof. rewrite addC. apply add0. Qed.
Lemma add4 a b c d : add (add a b) (add c d) = add (add a c) (add b d).
Proof. rewrite <- !addA. f_equal. rewrite !addA. f_equal. apply addC. Qed.
Lemma bsum_ext n f g : (forall i, i < n -> f i = g i) -> bsum n f = bsum n g.
Proof. induction n; cbn; intros H; auto. rewrite IHn, H; auto. Qed.
Lemma bsum_zero n f : (forall i, i < n -> f i = zero) -> bsum n f = zero.
Proof. induction n; cbn; intros H; auto. rewrite IHn, H; auto. Qed.
Lemma bsum_add n f g : bsum n (fun i => add (f i) (g i)) = add (bsum n f) (bsum n g).
Proof. induction n; cbn; [rewrite add0; auto|]. rewrite IHn. apply add4. Qed.
Lemma bsum_swap n m f : bsum n (fun i => bsum m (fun j => f i j)) = bsum m (fun j => bsum n (fun i => f i j)).
Proof.
  induction n; cbn; [symmetry; apply bsum_zero; auto|]. rewrite IHn, <- bsum_add. reflexivity.
Qed.
Lemma bsum_single n i x : i < n -> bsum n (fun k => if Nat.eqb k i then x k else zero) = x i.
Proof.
  induction n; cbn; intros H; [lia|]. destruct (Nat.eqb_spec n i).
  - subst. rewrite bsum_zero; [apply add0|]. intros k Hk. destruct (Nat.eqb_spec k i); auto; lia.
  - rewrite add0r. apply IHn. lia.
Qed.
(** Splitting off the index [i]. *)
Lemma bsum_split n i f (P : nat -> bool) : i < n -> P i = false ->
  bsum n (fun k => if Nat.eqb k i || P k then f k else zero) = add (bsum n (fun k => if P k then f k else zero)) (f i).
Proof.
  intros Hi Hp. rewrite <- (bsum_single n i f Hi). rewrite <- bsum_add. apply bsum_ext. intros k Hk.
  destruct (Nat.eqb_spec k i); cbn; [subst; rewrite Hp, add0; auto|]. rewrite add0r. auto.
Qed.
Lemma if_zero (b : bool) x : (if b then x else zero) = if b then x else zero.
Proof. reflexivity. Qed.
End BigSum.

Lemma bsum_hom {A B} (add : A -> A -> A) zero (add' : B -> B -> B) zero' (h : A -> B) n f :
  h zero = zero' -> (forall a b, h (add a b) = add' (h a) (h b)) ->
  h (bsum add zero n f) = bsum add' zero' n (fun i => h (f i)).
Proof. intros H0 H. induction n; cbn; auto. rewrite H, IHn. reflexivity. Qed.

Section Sums.
Context {S : Scal} {L : ScalLaws S}.
Add Field kf : (@kfield S L).
Local Open Scope k_scope.
Definition fsum := bsum fadd fzero.
Definition msum := bsum madd mzero.
Lemma ksum_b n f : ksum n f = bsum kadd k0 n f.
Proof. induction n; cbn; congruence. Qed.
Lemma kC a b : a + b = b + a. Proof. ring. Qed.
Lemma kA a b c : a + (b + c) = a + b + c. Proof. ring. Qed.
Lemma kZ a : 0 + a = a. Proof. ring. Qed.

Lemma ksum_ext n f g : (forall i, (i < n)%nat -> f i = g i) -> ksum n f = ksum n g.
Proof. rewrite !ksum_b. apply bsum_ext. Qed.
Lemma ksum_zero n f : (forall i, (i < n)%nat -> f i = 0) -> ksum n f = 0.
Proof. rewrite ksum_b. apply bsum_zero; auto using kZ. Qed.
Lemma ksum_add n f g : ksum n (fun i => f i + g i) = ksum n f + ksum n g.
Proof. rewrite !ksum_b. apply bsum_add; auto using kC, kA, kZ. Qed.
Lemma ksum_swap n m f : ksum n (fun i => ksum m (fun j => f i j)) = ksum m (fun j => ksum n (fun i => f i j)).
Proof.
  rewrite (ksum_ext n _ (fun i => bsum kadd k0 m (f i))) by (intros; apply ksum_b).
  rewrite (ksum_ext m _ (fun j => bsum kadd k0 n (fun i => f i j))) by (intros; apply ksum_b).
  rewrite !ksum_b. apply bsum_swap; auto using kC, kA, kZ.
Qed.
Lemma ksum_scale n c f : ksum n (fun i => c * f i) = c * ksum n f.
Proof. induction n; cbn; [ring|]. rewrite IHn. ring. Qed.
Lemma ksum_scale_r n c f : ksum n (fun i => f i * c) = ksum n f * c.
Proof. induction n; cbn; [ring|]. rewrite IHn. ring. Qed.
Lemma ksum_opp n f : ksum n (fun i => - f i) = - ksum n f.
Proof. induction n; cbn; [ring|]. rewrite IHn. ring. Qed.
Lemma ksum_single n i x : (i < n)%nat -> ksum n (fun k => if Nat.eqb k i then x k else 0) = x i.
Proof. rewrite ksum_b. apply bsum_single; auto using kC, kZ. Qed.

Lemma fsum_ext n f g : (forall i, (i < n)%nat -> f i = g i) -> fsum n f = fsum n g.
Proof. apply bsum_ext. Qed.
Lemma fsum_add n f g : fsum n (fun i => fadd (f i) (g i)) = fadd (fsum n f) (fsum n g).
Proof. apply bsum_add; [apply fadd_comm|apply fadd_assoc|apply fadd_zero_l]. Qed.
Lemma mdot_fsum m n f : mdot m (fsum n f) = ksum n (fun i => mdot m (f i)).
Proof. rewrite ksum_b. apply bsum_hom; [apply mdot_zero_r|apply mdot_add_r]. Qed.
Lemma fact_fsum T n f : fact T (fsum n f) = fsum n (fun i => fact T (f i)).
Proof. apply bsum_hom; [apply fact_zero|apply fact_add]. Qed.
Lemma mact_msum T n f : mact T (msum n f) = msum n (fun i => mact T (f i)).
Proof. apply bsum_hom; [apply mact_zero|apply mact_add]. Qed.
Lemma imul_msum J n f : imul J (msum n f) = fsum n (fun i => imul J (f i)).
Proof. apply bsum_hom; [apply imul_zero|apply imul_add]. Qed.
Lemma mdot_if (b : bool) m f : mdot m (if b then f else fzero) = if b then mdot m f else 0.
Proof. destruct b; auto. apply mdot_zero_r. Qed.
Lemma mdot_if_l (b : bool) m f : mdot (if b then m else mzero) f = if b then mdot m f else 0.
Proof. destruct b; auto. apply mdot_zero_l. Qed.
Lemma mdot_msum n m f : mdot (msum n m) f = ksum n (fun i => mdot (m i) f).
Proof. rewrite ksum_b. apply (bsum_hom madd mzero kadd k0 (fun m => mdot m f)); [apply mdot_zero_l|intros; apply mdot_add_l]. Qed.
End Sums.
