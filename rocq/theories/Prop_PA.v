(** C40: PartialAssignment. *)
From Coq Require Import NArith List Bool Arith Lia.
From Verif Require Import Model_Base Model_Lit Model_PartialAssignment Spec Drivers Proof_Base Proof_PA.
Import ListNotations.

(** C40: for every history of [resize], [assign] and [unassign] calls, if all
    named variables exist when they are named, all calls return and every query
    agrees with the abstract map; a call or query naming a variable that does
    not exist panics with an out-of-bounds index. *)
Theorem pa_is_map (ops : list pa_op) :
  match amap_exec ops with
  | None => pa_exec ops = Panic PBounds
  | Some (n, f) => exists p, pa_exec ops = Ret p /\
      forall l,
        if N.to_nat (l / 2)%N <? n then
          pa_is_true p l = Ret (match f (l / 2)%N with Some b => Bool.eqb b (N.odd l) | None => false end) /\
          pa_is_false p l = Ret (match f (l / 2)%N with Some b => negb (Bool.eqb b (N.odd l)) | None => false end) /\
          pa_is_assigned p (l / 2)%N = Ret (match f (l / 2)%N with Some _ => true | None => false end) /\
          pa_value p l = Ret (option_map (Bool.eqb (N.odd l)) (f (l / 2)%N))
        else
          pa_is_true p l = Panic PBounds /\ pa_is_false p l = Panic PBounds /\
          pa_value p l = Panic PBounds /\ pa_assign p l = Panic PBounds
  end.
Proof.
  pose proof (pa_exec_ok ops) as H. destruct (amap_exec ops) as [[n f]|]; auto.
  destruct H as (p & m & E & Hr & HL & Hf). exists p. split; auto. intro l.
  destruct (Nat.ltb_spec (N.to_nat (l / 2)%N) n) as [Hl|Hl].
  - specialize (Hf _ Hl). pose proof Hf as Hf'. rewrite <- vidx_div in Hf'.
    rewrite (pa_is_true_rep p m l _ Hr Hf'), (pa_is_false_rep p m l _ Hr Hf'),
      (pa_value_rep p m l _ Hr Hf'), (pa_is_assigned_rep p m _ _ Hr Hf).
    rewrite !ob_eqb_olit. unfold olit. destruct (f (l / 2)%N) as [[]|], (N.odd l); repeat split; reflexivity.
  - apply pa_oob. rewrite vidx_div. destruct Hr as [HL' _]. lia.
Qed.
Example pa_is_map_ex :
  match amap_exec [PaResize 300; PaAssign 513; PaAssign 3; PaUnassign 1] with
  | Some (n, f) => n = 300 /\ f 256%N = Some true /\ f 1%N = None /\ f 0%N = None
  | None => False
  end.
Proof. vm_compute. auto. Qed.
Print Assumptions pa_is_map.
