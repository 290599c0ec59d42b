(** A robot, control laws and web messages for the examples of C63. *)
From Coq Require Import List Arith ZArith Bool String QArith Qcanon Lia Field Reals.
From Verif Require Import Scalar Base Spatial SpecGeo Joint Body Kin Ops Discrete Json App Instances Specs SpecCache SpecKin SpecDyn SpecReal SpecDiscrete SpecHold SpecApp Samples Checks
  BigSum DynApi OpsTask ControlProofs DiscreteSamples PropControl PropHold.
Import ListNotations.
Local Open Scope nat_scope.

(** PD laws. *)
Section Laws.
Context {S : Scal} {L : ScalLaws S}.
Add Field kf : (@kfield S L).
Local Open Scope k_scope.
Definition pd1 (g : K * K) (x goal v : K) : K := fst g * (goal - x) - snd g * v.
Definition pd_p (x goal : v3) (dx : list K) (g : K * K) : list K :=
  [pd1 g (vx x) (vx goal) (coef dx 0); pd1 g (vy x) (vy goal) (coef dx 1); pd1 g (vz x) (vz goal) (coef dx 2)].
Definition pd_o (R goal : m3) (w : list K) (g : K * K) : list K :=
  [pd1 g (vy (r0 R)) (vy (r0 goal)) (coef w 0); pd1 g (vz (r1 R)) (vz (r1 goal)) (coef w 1); pd1 g (vx (r2 R)) (vx (r2 goal)) (coef w 2)].
Definition pd_j (q goal dq : list K) (g : K * K) : list K :=
  map (fun i => pd1 g (coef q i) (coef goal i) (coef dq i)) (seq 0 (List.length q)).
Lemma pd1_zero g x : pd1 g x x 0 = 0. Proof. unfold pd1. ring. Qed.
Lemma pd_p_zero x g : pd_p x x [0; 0; 0] g = [0; 0; 0].
Proof. unfold pd_p, coef. cbn [nth]. rewrite !pd1_zero. reflexivity. Qed.
Lemma pd_o_zero R g : pd_o R R [0; 0; 0] g = [0; 0; 0].
Proof. unfold pd_o, coef. cbn [nth]. rewrite !pd1_zero. reflexivity. Qed.
Lemma pd_j_zero n q g : List.length q = n -> pd_j q q (repeat 0 n) g = repeat 0 n.
Proof.
  intros <-. unfold pd_j. assert (X : forall l m, (forall i, In i l -> coef (repeat 0 m) i = 0) -> map (fun i => pd1 g (coef q i) (coef q i) (coef (repeat 0 m) i)) l = repeat 0 (List.length l)).
  { induction l as [|i l IH]; intros m H; [reflexivity|]. cbn [map List.length repeat]. rewrite (H i) by (left; auto). rewrite pd1_zero. f_equal. apply IH. intros; apply H; right; auto. }
  rewrite X; [rewrite seq_length; reflexivity|]. intros i _. unfold coef. revert i. induction (List.length q); intros [|i]; cbn; auto.
Qed.
End Laws.

(** What the web page may send. *)
Definition message {S : Scal} (object key : string) (link : Z) (point mouse : v3) : val :=
  VObj [("key_object"%string, VStr object); ("key_down"%string, VStr key); ("idx_link"%string, VInt link);
        ("pos_mouse_in_world"%string, enc_v3 mouse); ("pos_click_in_link"%string, enc_v3 point)].
Lemma message_drags {S : Scal} ab key link point mouse : ab_name ab = "r"%string ->
  drags (message "spatial_dyn::model::r" key link point mouse) ab link point mouse.
Proof. intros E. constructor; eexists; (split; [reflexivity|]); rewrite ?E; reflexivity. Qed.
Lemma message_elsewhere {S : Scal} ab key link point mouse : ab_name ab = "r"%string -> elsewhere (message "" key link point mouse) ab.
Proof. intros E. eexists. split; [eexists; split; reflexivity|]. rewrite E. discriminate. Qed.

(** Three prismatic joints, moving. *)
Definition gantry : list (@op QcScal) := slides ++ [OSetDq [qz 1; qz 0; qz (-2)]; OAsk QInertia].
Definition crane : @body QcScal := after pinv_s gantry.
Definition gains : option (@K QcScal * @K QcScal) := Some (qz 2, qz 1).
Definition tick_of (object key : string) : @tick QcScal :=
  Tick gains gains gains (Some (message object key 2 (QV 1 0 0) (QV 5 0 (-3)))) (qq 1 10).
Definition crane_run (ts : list (@tick QcScal)) : res (list (@App.frame QcScal) * option (@app QcScal)) :=
  match app_start [qz 1; qz 2; qz 3] crane with
  | Ok s => app_loop solve_i pinv_s log_s dlog_s sumsq pd_p pd_o pd_j ts s
  | Throw => Throw
  | UB => UB
  end.
Definition fr3 (v : @v3 QcScal) : list (Z * Z) := map frac [vx v; vy v; vz v].
Definition shown (r : res (list (@App.frame QcScal) * option (@app QcScal))) : list (bool * list (Z * Z) * list (Z * Z)) :=
  match r with Ok (fs, _) => map (fun f => (f_done f, fr3 (f_goal f), map frac (f_q f))) fs | _ => [] end.
