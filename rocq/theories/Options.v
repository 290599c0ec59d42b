(** Default options and conversions between option structures. *)
From Coq Require Import ZArith Bool.
From Verif Require Import Scalar InvDyn Opspace Sim.

Section Options.
Context {S : Scal}.
Local Open Scope k_scope.
(** options.h:38-69, InverseDynamicsOptions() *)
Definition id_default : id_opts := IdOpts true false false (klit 1%Z 100%positive).
(** options.h:75-106, ForwardDynamicsOptions() *)
Definition fd_default : id_opts := IdOpts true true false (klit 1%Z 100%positive).
(** options.cc:14-16, InverseDynamicsOptions(ForwardDynamicsOptions); both structures
    have the same four fields and are one record here *)
Definition id_of_fd (o : id_opts) : id_opts := IdOpts (o_grav o) (o_cc o) (o_fric o) (o_stic o).
(** options.h:107-160, IntegrationOptions(): aba, the forward dynamics options made
    from it (options.cc:22-24), and the rest *)
Definition integration_default : bool * id_opts * int_opts :=
  (false, IdOpts true true false (klit 1%Z 100%positive), IntOpts false MRk4).
(** options.h:164-205, opspace::InverseDynamicsOptions() *)
Definition ops_default : ops_opts := OpsOpts false false false 0 (klit 1%Z 100%positive) 0.
End Options.
