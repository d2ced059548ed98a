(** C85: clause minimization needs a bounded stack. *)
From Coq Require Import NArith List Bool Arith Lia.
From Verif Require Import Model_Base Model_Lit Model_PartialAssignment Model_Header Model_Arena Model_Prop
  Model_Heap Model_Vsids Model_Analysis Model_Depth Model_Luby Model_Solver Spec Proof_Base Proof_Cost Proof_Minimize Drivers_Solver Examples_Solver Prop_Prop Prop_Analysis Prop_HeapCost.
Import ListNotations.

(** ** C85 *)
Lemma er_depth p fuel : forall m i depth, erase (redundant_rec_d fuel m i p depth) = redundant_rec fuel m i p depth.
Proof.
  induction fuel as [|f IH]; intros m i depth; [reflexivity|]. cbn [redundant_rec_d redundant_rec].
  destruct (vget _ _) as [s| |]; try reflexivity. cbn [bind]. destruct (reason_lits _ _) as [rl| |]; try reflexivity. cbn [bind].
  destruct (lookahead _ _ _ _) as [[[|]|]| |]; try reflexivity; cbn [bind].
  - destruct (cache_set _ _ _); reflexivity.
  - destruct (Nat.ltb MAX_DEPTH depth); [destruct (redundant_iter _ _ _ _ _); reflexivity|].
    match goal with |- erase (?F _ _ _) = ?G _ _ => assert (Q : forall ls m d, erase (F m ls d) = G m ls); [clear m|apply Q] end.
    induction ls as [|l r IHl]; intros m d0.
    + destruct (cache_set _ _ _); reflexivity.
    + destruct (trail_index _ _) as [j| |]; try reflexivity. cbn [bind]. destruct (redundant_cached _ _ _) as [c| |]; try reflexivity. cbn [bind].
      destruct c as [b|]; cbn [bind].
      * destruct b; [apply IHl|]. destruct (cache_set _ _ _); reflexivity.
      * rewrite <- IH. destruct (redundant_rec_d f m j p (depth + 1)) as [[[b m1] d]| |]; try reflexivity. cbn [erase bind].
        destruct b; [apply IHl|]. destruct (cache_set _ _ _); reflexivity.
  - destruct (cache_set _ _ _); reflexivity.
Qed.

(** Counting changes no result. *)
Theorem counted_frames fuel m index p depth r :
  redundant_rec fuel m index p depth = Ret r <-> exists frames, redundant_rec_d fuel m index p depth = Ret (r, frames).
Proof. rewrite <- er_depth. apply erase_iff. Qed.

Lemma frames_bound p fuel : forall m i depth r d, redundant_rec_d fuel m i p depth = Ret (r, d) -> d <= 1 + (S MAX_DEPTH - depth).
Proof.
  induction fuel as [|f IH]; intros m i depth r d E; [discriminate|]. cbn [redundant_rec_d] in E.
  destruct (vget _ _) as [s| |]; try discriminate. cbn [bind] in E. destruct (reason_lits _ _) as [rl| |]; try discriminate. cbn [bind] in E.
  destruct (lookahead _ _ _ _) as [[[|]|]| |]; try discriminate; cbn [bind] in E.
  - destruct (cache_set _ _ _); inversion E; lia.
  - destruct (Nat.ltb_spec MAX_DEPTH depth) as [L|L]; [destruct (redundant_iter _ _ _ _ _); inversion E; lia|].
    assert (G : forall ls m d0, d0 <= S MAX_DEPTH - depth ->
      (fix children (m : minim) (lits : list lit) (inner : nat) {struct lits} : res ((bool * minim) * nat) :=
              match lits with
              | [] => let* m1 := cache_set m i true in Ret ((true, m1), S inner)
              | l :: rest =>
                  let* ri := trail_index (p_trail p) l in
                  let* c := redundant_cached m ri (p_trail p) in
                  let* (b, m1, d) :=
                    match c with
                    | Some b => Ret ((b, m), 0)
                    | None => redundant_rec_d f m ri p (depth + 1)
                    end in
                  if b then children m1 rest (Nat.max inner d)
                  else let* m2 := cache_set m1 i false in Ret ((false, m2), S (Nat.max inner d))
              end) m ls d0 = Ret (r, d) -> d <= 1 + (S MAX_DEPTH - depth)); [|eapply G; [|exact E]; lia].
    clear E m. induction ls as [|l rest IHl]; intros m d0 Hd E.
    + destruct (cache_set _ _ _); inversion E; lia.
    + destruct (trail_index _ _) as [j| |]; try discriminate. cbn [bind] in E. destruct (redundant_cached _ _ _) as [c| |]; try discriminate. cbn [bind] in E.
      destruct (match c with Some b => Ret (b, m, 0) | None => redundant_rec_d f m j p (depth + 1) end) as [[[b m1] d1]| |] eqn:E1; try discriminate. cbn [bind] in E.
      assert (Hd1 : d1 <= S MAX_DEPTH - depth).
      { destruct c; [inversion E1; lia|]. apply IH in E1. lia. }
      destruct b; [apply IHl in E; lia|]. destruct (cache_set _ _ _); inversion E. lia.
  - destruct (cache_set _ _ _); inversion E; lia.
Qed.

(** However long the chains of reasons are, a redundancy check has at most 22
    activations of the recursive function on the stack. *)
Theorem frames_bounded fuel m index p r frames :
  redundant_rec_d fuel m index p 0 = Ret (r, frames) -> frames <= 22.
Proof. intro E. apply frames_bound in E. exact E. Qed.

Lemma frames_pos p fuel m i depth r d : redundant_rec_d fuel m i p depth = Ret (r, d) -> 1 <= d.
Proof.
  destruct fuel as [|f]; [discriminate|]. intro E. cbn [redundant_rec_d] in E.
  destruct (vget _ _) as [s| |]; try discriminate. cbn [bind] in E. destruct (reason_lits _ _) as [rl| |]; try discriminate. cbn [bind] in E.
  destruct (lookahead _ _ _ _) as [[[|]|]| |]; try discriminate; cbn [bind] in E.
  - destruct (cache_set _ _ _); inversion E; lia.
  - destruct (Nat.ltb MAX_DEPTH depth); [destruct (redundant_iter _ _ _ _ _); inversion E; lia|].
    match type of E with ?F _ _ _ = _ => assert (G : forall ls m d0, F m ls d0 = Ret (r, d) -> 1 <= d); [clear E m|exact (G _ _ _ E)] end.
    induction ls as [|l rest IHl]; intros m d0 E.
    + destruct (cache_set _ _ _); inversion E; lia.
    + destruct (trail_index _ _) as [j| |]; try discriminate. cbn [bind] in E. destruct (redundant_cached _ _ _) as [c| |]; try discriminate. cbn [bind] in E.
      destruct (match c with Some b => Ret (b, m, 0) | None => redundant_rec_d f m j p (depth + 1) end) as [[[b m1] d1]| |]; try discriminate. cbn [bind] in E.
      destruct b; [apply IHl in E; lia|]. destruct (cache_set _ _ _); inversion E. lia.
  - destruct (cache_set _ _ _); inversion E; lia.
Qed.

Lemma frames_fuel p fuel : forall m i depth r d, redundant_rec_d fuel m i p depth = Ret (r, d) ->
  forall k, (d <= k -> redundant_rec_d k m i p depth = Ret (r, d)) /\ (k < d -> redundant_rec_d k m i p depth = OutOfFuel).
Proof.
  induction fuel as [|f IH]; intros m i depth r d E [|k].
  1,2: discriminate.
  { split; [apply frames_pos in E; lia|reflexivity]. }
  assert (P := frames_pos _ _ _ _ _ _ _ E). cbn [redundant_rec_d] in E |- *.
  destruct (vget _ _) as [s| |]; try discriminate. cbn [bind] in E |- *. destruct (reason_lits _ _) as [rl| |]; try discriminate. cbn [bind] in E |- *.
  destruct (lookahead _ _ _ _) as [[[|]|]| |]; try discriminate; cbn [bind] in E |- *.
  - destruct (cache_set _ _ _); try discriminate. cbn [bind] in *. injection E as <- <-. split; [reflexivity|lia].
  - destruct (Nat.ltb MAX_DEPTH depth); [destruct (redundant_iter _ _ _ _ _); try discriminate; cbn [bind] in *; injection E as <- <-; split; [reflexivity|lia]|].
    match type of E with ?F _ _ _ = _ => match goal with |- (_ -> ?K _ _ _ = _) /\ _ =>
      assert (G : forall ls m d0, F m ls d0 = Ret (r, d) -> S d0 <= d /\ (d <= S k -> K m ls d0 = Ret (r, d)) /\ (d0 <= k -> S k < d -> K m ls d0 = OutOfFuel)) end end.
    2: { destruct (G _ _ _ E) as (_ & G1 & G2). split; [exact G1|intro; apply G2; lia]. }
    clear E m P. induction ls as [|l rest IHl]; intros m d0 E.
    + destruct (cache_set _ _ _); try discriminate. cbn [bind] in *. injection E as <- <-. split; [lia|split; [reflexivity|lia]].
    + destruct (trail_index _ _) as [j| |]; try discriminate. cbn [bind] in E |- *. destruct (redundant_cached _ _ _) as [c| |]; try discriminate. cbn [bind] in E |- *.
      destruct c as [b|].
      * cbn [bind] in E |- *. rewrite Nat.max_0_r in E |- *.
        destruct b; [exact (IHl _ _ E)|]. destruct (cache_set _ _ _); try discriminate. cbn [bind] in *. injection E as <- <-. split; [lia|split; [reflexivity|lia]].
      * destruct (redundant_rec_d f m j p (depth + 1)) as [[[b m1] d1]| |] eqn:E1; try discriminate. cbn [bind] in E.
        destruct (IH _ _ _ _ _ E1 k) as [K1 K2].
        assert (Q : S (Nat.max d0 d1) <= d).
        { destruct b; [destruct (IHl _ _ E); lia|]. destruct (cache_set _ _ _); try discriminate. cbn [bind] in E. injection E as _ <-. lia. }
        split; [lia|]. destruct (Nat.leb_spec d1 k) as [L|L].
        { rewrite (K1 L). cbn [bind]. destruct b.
          - destruct (IHl _ _ E) as (_ & I1 & I2). split; [exact I1|intros; apply I2; lia].
          - destruct (cache_set _ _ _); try discriminate. cbn [bind] in *. injection E as <- <-. split; [reflexivity|lia]. }
        { rewrite (K2 L). cbn [bind]. split; [lia|reflexivity]. }
  - destruct (cache_set _ _ _); try discriminate. cbn [bind] in *. injection E as <- <-. split; [reflexivity|lia].
Qed.

(** The number of activations is exact: the recursive function, allowed to nest [k]
    deep, gives its result if and only if [k] is at least that number. *)
Theorem frames_exact fuel m index p depth r frames :
  redundant_rec_d fuel m index p depth = Ret (r, frames) ->
  forall k, redundant_rec k m index p depth = Ret r <-> frames <= k.
Proof.
  intros E k. destruct (frames_fuel _ _ _ _ _ _ _ E k) as [A B]. rewrite <- er_depth. split; intro H.
  - destruct (Nat.leb_spec frames k) as [L|L]; [exact L|]. rewrite (B L) in H. discriminate.
  - rewrite (A H). reflexivity.
Qed.

(** A chain of implications: variable 0 is decided, each of the others is implied by
    the one before it.  The last one is redundant if the first is in the clause. *)
Definition chain (n : nat) : prop := mkProp false [] [] arena_empty watches_empty
  (mkTrail (map Some (seq 0 n))
    (mkStep 1 1 RDecision :: map (fun i => mkStep (2 * N.of_nat i + 1) 1 (RBinary (2 * N.of_nat (i - 1)))) (seq 1 (n - 1)))%N n [0; 0]).
Definition before_chain (n : nat) : minim := mkMin [Some 0; Some 0] (Some true :: repeat None (n - 1)) [0].
Example frames_bounded_example :
  match redundant_rec_d 1000 (before_chain 20) 19 (chain 20) 0 with Ret ((true, _), 19) => True | _ => False end /\
  match redundant_rec_d 1000 (before_chain 100) 99 (chain 100) 0 with Ret ((true, m), 22) => mi_cache m = repeat (Some true) 100 | _ => False end.
Proof. vm_compute. auto. Qed.

(** The chain of twenty needs nesting 19. *)
Example frames_exact_example :
  match redundant_rec 19 (before_chain 20) 19 (chain 20) 0 with Ret (true, _) => True | _ => False end /\
  redundant_rec 18 (before_chain 20) 19 (chain 20) 0 = OutOfFuel.
Proof. vm_compute. auto. Qed.

Print Assumptions counted_frames.
Print Assumptions frames_bounded.
Print Assumptions frames_exact.
