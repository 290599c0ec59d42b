(** Specifications: the MATLAB functions (C53, C54). *)
From Coq Require Import List Arith ZArith Bool String.
From Verif Require Import Scalar Base Spatial Joint Body Kin InvDyn FwdDyn Opspace Ops Matlab Specs SpecCache SpecDyn SpecDiscrete.
Import ListNotations.

Section SpecMatlab.
Context {S : Scal}.

(** The number of entries of an array with these dimensions. *)
Definition size_of (d : list nat) : nat := fold_right Nat.mul 1 d.
(** MATLAB's arrays have as many entries as their dimensions say. *)
Definition whole (a : marr) : Prop := List.length (m_data a) = size_of (m_dim a).
(** [a] is n x w, n x w1 x w2 with w = w1 w2, and so on, [w >= 0]. *)
Definition columns (n w : nat) (a : marr) : Prop := whole a /\ exists d, m_dim a = n :: d /\ size_of d = w.
(** Column [i]: the entries (j, i), which MATLAB stores from place n i on. *)
Definition column (n : nat) (a : marr) (i : nat) : list K := vec n (fun j => coef (m_data a) (j + n * i)).
(** [ab'] is [ab] moved to the state [q], [dq] (caches aside). *)
Definition moved_to (ab : body) (q dq : list K) (ab' : body) : Prop := forall mem, cold ab' mem = restart ab q dq mem.
(** The last of the [w] columns; [q] if there is none. *)
Definition last_column (n w : nat) (a : marr) (q : list K) : list K :=
  match w with 0 => q | Datatypes.S i => column n a i end.
(** [out] consists of [w] blocks of [sz] entries. *)
Definition blocks (dims : list nat) (sz w : nat) (Q out : marr) : Prop :=
  m_dim out = dims ++ tl (m_dim Q) /\ whole out /\ List.length (m_data out) = sz * w.
(** Entry [k] of block [i]. *)
Definition block_entry (sz : nat) (out : marr) (i k : nat) : K := coef (m_data out) (k + sz * i).
(** The six numbers of a column of the Jacobian. *)
Definition six_of (m : motion) (k : nat) : K :=
  match k with 0 => vx (mlin m) | 1 => vy (mlin m) | 2 => vz (mlin m) | 3 => vx (mang m) | 4 => vy (mang m) | _ => vz (mang m) end.
Definition three_of (v : v3) (k : nat) : K := match k with 0 => vx v | 1 => vy v | _ => vz v end.
(** The Jacobian as a matrix, of which [J] is the list of columns. *)
Definition as_matrix (J : list motion) : list (list K) :=
  map (fun k => map (fun m => six_of m k) J) (seq 0 6).
(** [a] is an n x w matrix. *)
Definition matrix (n w : nat) (a : marr) : Prop := whole a /\ m_dim a = [n; w].

(** Named arguments: 'link', l, 'offset', [x; y; z], or something else. *)
Inductive named_arg := NLink (a : marr) | NOffset (a : marr) | NOther (name : string) (a : marg).
Definition named_ok (o : named_arg) : Prop :=
  match o with
  | NLink a => matrix 1 1 a
  | NOffset a => matrix 3 1 a
  | NOther s _ => s <> "link"%string /\ s <> "offset"%string
  end.
Definition written (o : named_arg) : list marg :=
  match o with
  | NLink a => [MStr "link"; MNum a]
  | NOffset a => [MStr "offset"; MNum a]
  | NOther s a => [MStr s; a]
  end.
Definition args_of (l : list named_arg) : list marg := flat_map written l.
(** The last of them counts; otherwise the last link and no offset. *)
Definition link_of (l : list named_arg) : Z :=
  fold_left (fun z o => match o with NLink a => ktrunc (coef (m_data a) 0) | _ => z end) l (-1)%Z.
Definition offset_in (l : list named_arg) : v3 :=
  fold_left (fun v o => match o with NOffset a => V3 (coef (m_data a) 0) (coef (m_data a) 1) (coef (m_data a) 2) | _ => v end) l v3zero.
(** The velocity that takes the robot from column [i] to column [i + 1] in [dt]. *)
Definition mean_velocity (n : nat) (Q : marr) (dt : K) (i : nat) : list K :=
  map (fun j => ((coef (column n Q (i + 1)) j - coef (column n Q i) j) / dt)%k) (seq 0 n).
End SpecMatlab.
