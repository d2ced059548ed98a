(** C13, C14: the DRAT writers. *)
From Coq Require Import NArith ZArith List Bool.
From Verif Require Import Model_Base Model_Prop Model_Drat Spec_Format Drivers Proof_Drat.
Import ListNotations.
Local Open Scope N_scope.

(** C13: writing any sequence of proof steps succeeds, produces bytes, and the
    binary DRAT grammar reads them back as exactly these steps. *)
Theorem bdrat_decodes (log : list proof_step) : exists bs,
  bdrat_output log = Ret bs /\ Forall (fun b => b < 256) bs /\
  decode_bdrat bs = Some (map zs_of log).
Proof.
  destruct (bdrat_roundtrip log) as (bs & H1 & H2). exists bs.
  exact (conj H1 (conj (bdrat_bytes log bs H1) H2)).
Qed.
Example bdrat_ex :
  bdrat_output [PAdd [127; 0]; PDelete [2147483647]] =
    Ret [97; 128; 1; 3; 0; 100; 128; 128; 128; 128; 8; 0] /\
  decode_bdrat [97; 128; 1; 3; 0; 100; 128; 128; 128; 128; 8; 0] =
    Some [ZAdd [64; -1]%Z; ZDel [1073741824]%Z].
Proof. split; vm_compute; reflexivity. Qed.

(** C14 *)
Theorem drat_decodes (log : list proof_step) :
  decode_drat (drat_output log) = Some (map zs_of log).
Proof. exact (drat_roundtrip log). Qed.
Example drat_ex :
  drat_output [PAdd [19; 0]; PDelete [4]; PAdd []] =
    [49; 48; 32; 45; 49; 32; 48; 10; 100; 32; 45; 51; 32; 48; 10; 48; 10] /\
  decode_drat [49; 48; 32; 45; 49; 32; 48; 10; 100; 32; 45; 51; 32; 48; 10; 48; 10] =
    Some [ZAdd [10; -1]%Z; ZDel [-3]%Z; ZAdd []].
Proof. split; vm_compute; reflexivity. Qed.

Print Assumptions bdrat_decodes.
Print Assumptions drat_decodes.
