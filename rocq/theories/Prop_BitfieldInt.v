(** C91: bit fields of any integer type, in structs with several fields. *)
From Coq Require Import ZArith List Bool Arith Lia ZifyBool.
From Verif Require Import Model_Base Model_BitfieldInt Proof_Base Proof_BitfieldInt.
Import ListNotations.
Local Open Scope Z_scope.

(** ** Specification *)
(** The numbers of an integer type and of the type of an accessor *)
Definition of_int (t : int_ty) (x : Z) : Prop :=
  if i_signed t then - 2 ^ (i_bits t - 1) <= x < 2 ^ (i_bits t - 1) else 0 <= x < 2 ^ i_bits t.
Definition of_value (t : value_ty) (v : Z) : Prop :=
  match t with VBool => v = 0 \/ v = 1 | VInt t => 1 <= i_bits t /\ of_int t v end.
(** A struct declaration: the type and the attributes of every field *)
Notation struct := (list (int_ty * list (list decl))).
(** The fields of a value have the declared types. *)
Definition of_struct (fs : struct) (s : list Z) : Prop :=
  length s = length fs /\ forall n t ats x, nth_error fs n = Some (t, ats) -> nth_error s n = Some x -> 1 <= i_bits t /\ of_int t x.
(** The [i]-th declaration of the [k]-th attribute of the [n]-th field: the type of
    the field, the declaration, the position of its first bit, and its accessors *)
Definition declared (fs : struct) (n k i : nat) (t : int_ty) (d : decl) (pos : Z) (a : int_accessor) : Prop :=
  exists accs ats ds rows row, derive_struct fs = Some accs /\
    nth_error fs n = Some (t, ats) /\ nth_error ats k = Some ds /\ nth_error ds i = Some d /\
    pos = fold_right Z.add 0 (map de_width (firstn i ds)) /\
    nth_error accs n = Some rows /\ nth_error rows k = Some row /\ nth_error row i = Some (Some a).
(** What is stored for [v] *)
Definition fitted (d : decl) (v : Z) : Z :=
  if de_clamp d then Z.max 0 (Z.min v (2 ^ de_width d - 1)) else v mod 2 ^ de_width d.

Lemma of_int_in t x : of_int t x = in_int t x. Proof. reflexivity. Qed.
Lemma declared_fits fs s n k i t d pos a : declared fs n k i t d pos a -> of_struct fs s ->
  exists x, nth_error s n = Some x /\ 1 <= i_bits t /\ in_int t x /\ ia_fits t a /\
    ia_width a = de_width d /\ ia_clamp a = de_clamp d /\ de_access d = Some (ia_ty a) /\ ia_offset a = pos.
Proof.
  intros (accs & ats & ds & rows & row & E & H1 & H2 & H3 & H4 & H5 & H6 & H7) [Hl Hs].
  destruct (all_some_nth _ _ _ _ _ E H5) as ([t' ats'] & X1 & X2). rewrite H1 in X1. inversion X1; subst t' ats'. cbn [fst snd] in X2.
  destruct (all_some_nth _ _ _ _ _ X2 H6) as (ds' & Y1 & Y2). rewrite H2 in Y1. inversion Y1; subst ds'.
  destruct (nth_error s n) as [x|] eqn:Ex. 2:{ apply nth_error_None in Ex. assert (n < length fs)%nat by (apply nth_error_Some; congruence). lia. }
  destruct (Hs _ _ _ _ H1 Ex) as [B1 B2]. destruct (derive_attr_spec _ _ _ Y2 ltac:(lia)) as [_ R]. destruct (R i a H7) as (F & d' & D1 & D2 & D3 & D4 & D5 & _).
  rewrite H3 in D1. inversion D1; subst d'. exists x. repeat split; auto; try apply F; congruence.
Qed.
Lemma declared_apart fs n k i j t t' d d' pos pos' a b : declared fs n k i t d pos a -> declared fs n k j t' d' pos' b -> i <> j -> 1 <= i_bits t ->
  t' = t /\ (ia_offset a + ia_width a <= ia_offset b \/ ia_offset b + ia_width b <= ia_offset a).
Proof.
  intros (accs & ats & ds & rows & row & E & H1 & H2 & H3 & H4 & H5 & H6 & H7) (accs' & ats' & ds' & rows' & row' & E' & G1 & G2 & G3 & G4 & G5 & G6 & G7) N HB.
  assert (accs' = accs) as -> by congruence. assert (Q : (t', ats') = (t, ats)) by congruence. inversion Q; subst t' ats'. assert (ds' = ds) as -> by congruence. assert (rows' = rows) as -> by congruence. assert (row' = row) as -> by congruence.
  destruct (all_some_nth _ _ _ _ _ E H5) as ([t' ats'] & X1 & X2). rewrite H1 in X1. inversion X1; subst t' ats'. cbn [fst snd] in X2.
  destruct (all_some_nth _ _ _ _ _ X2 H6) as (ds' & Y1 & Y2). rewrite H2 in Y1. inversion Y1; subst ds'.
  destruct (derive_attr_spec _ _ _ Y2 ltac:(lia)) as [_ R]. split; [reflexivity|].
  destruct (R i a H7) as (_ & d1 & _ & _ & _ & _ & _ & A). destruct (R j b G7) as (_ & d2 & _ & _ & _ & _ & _ & B).
  destruct (Nat.lt_total i j) as [L|[L|L]]; [left; eapply A; eauto|contradiction|right; eapply B; eauto].
Qed.

(** The declarations that are accepted: widths from 1 to 127 that fit into the field
    together, for each attribute on its own; booleans have one bit and no clamp. *)
Definition acceptable (fs : struct) : Prop :=
  forall t ats ds, In (t, ats) fs -> In ds ats ->
    (ds <> [] -> fold_right Z.add 0 (map de_width ds) <= i_bits t) /\
    forall d, In d ds -> 1 <= de_width d <= 127 /\ (de_access d = Some VBool -> de_width d = 1 /\ de_clamp d = false).
Lemma all_some_iff {A B} (f : A -> option B) l : (exists ys, all_some f l = Some ys) <-> forall x, In x l -> exists y, f x = Some y.
Proof.
  induction l as [|x l IH]; cbn; [split; [intros _ ? []|exists []; reflexivity]|]. split.
  - intros [ys E] z [->|H]; destruct (f _) eqn:Ef; try discriminate; eauto. apply IH; [|exact H]. destruct (all_some f l); [eauto|discriminate].
  - intros H. destruct (H x (or_introl eq_refl)) as [y ->]. destruct (proj2 IH (fun z Hz => H z (or_intror Hz))) as [ys ->]. eauto.
Qed.
Lemma compiles_iff d : decl_compiles d = true <-> (de_access d = Some VBool -> de_width d = 1 /\ de_clamp d = false).
Proof.
  unfold decl_compiles. destruct (de_access d) as [[|q]|]; [|split; [discriminate|reflexivity]|split; [discriminate|reflexivity]].
  rewrite andb_true_iff, negb_true_iff, Z.eqb_eq. intuition.
Qed.
Lemma derive_decls_iff ds : forall o, (exists acs, derive_decls ds o = Some (acs, o + fold_right Z.add 0 (map de_width ds))) <->
  forall d, In d ds -> 1 <= de_width d <= 127 /\ (de_access d = Some VBool -> de_width d = 1 /\ de_clamp d = false).
Proof.
  induction ds as [|d r IH]; intros o; cbn [derive_decls map fold_right]; [split; [intros _ ? []|exists []; do 2 f_equal; lia]|]. rewrite Z.add_assoc. split.
  - intros [acs E]. destruct ((1 <=? de_width d) && (de_width d <? 128) && decl_compiles d) eqn:C; [|discriminate]. rewrite andb_true_iff, compiles_iff in C. destruct C as [C1 C2].
    intros d' [->|H]; [split; [lia|exact C2]|]. refine (proj1 (IH (o + de_width d)) _ d' H). destruct (derive_decls r (o + de_width d)) as [[acs' tot]|]; [|discriminate]. inversion E. eauto.
  - intros H. destruct (H d (or_introl eq_refl)) as [C1 C2]. apply compiles_iff in C2. rewrite C2. replace ((1 <=? de_width d) && (de_width d <? 128)) with true by lia. cbn [andb].
    destruct (proj2 (IH (o + de_width d)) (fun z Hz => H z (or_intror Hz))) as [acs ->]. eauto.
Qed.
Lemma derive_decls_total ds : forall o acs tot, derive_decls ds o = Some (acs, tot) -> tot = o + fold_right Z.add 0 (map de_width ds).
Proof.
  induction ds as [|d r IH]; intros o acs tot E; cbn [derive_decls map fold_right] in *; [inversion E; lia|].
  destruct (_ && _ && _); [|discriminate]. destruct (derive_decls r (o + de_width d)) as [[acs' tot']|] eqn:E1; [|discriminate]. inversion E; subst. rewrite (IH _ _ _ E1). lia.
Qed.
Theorem bitfield_accepted fs : (exists accs, derive_struct fs = Some accs) <-> acceptable fs.
Proof.
  unfold derive_struct. rewrite all_some_iff. split.
  - intros H t ats ds H1 H2. pose proof (proj1 (all_some_iff _ _) (H _ H1) ds H2) as [acs E]. cbn [fst] in E. unfold derive_attr in E.
    destruct (derive_decls ds 0) as [[acs' tot]|] eqn:E1; [|discriminate]. pose proof (derive_decls_total _ _ _ _ E1) as T.
    assert (D : forall d, In d ds -> 1 <= de_width d <= 127 /\ (de_access d = Some VBool -> de_width d = 1 /\ de_clamp d = false)) by (apply (derive_decls_iff ds 0); exists acs'; rewrite E1, T; reflexivity).
    split; [|exact D]. intros N. assert (P : 0 < tot).
    { rewrite T. destruct ds as [|d r]; [congruence|]. cbn [map fold_right]. pose proof (D d (or_introl eq_refl)). assert (0 <= fold_right Z.add 0 (map de_width r)); [|lia].
      assert (D' : forall z, In z r -> 1 <= de_width z <= 127) by (intros z Hz; apply (D z (or_intror Hz))). clear - D'. induction r as [|z r IH]; cbn; [lia|]. pose proof (D' z (or_introl eq_refl)). pose proof (IH (fun y Hy => D' y (or_intror Hy))). lia. }
    destruct (Z.ltb_spec 0 tot); [|lia]. destruct (Z.ltb_spec (tot - 1) (i_bits t)); [lia|discriminate].
  - intros H [t ats] H1. apply all_some_iff. intros ds H2. destruct (H t ats ds H1 H2) as [F D]. destruct (proj2 (derive_decls_iff ds 0) D) as [acs E]. cbn [fst]. unfold derive_attr. rewrite E.
    destruct (Z.ltb_spec 0 (0 + fold_right Z.add 0 (map de_width ds))) as [P|P]; [|eauto]. assert (N : ds <> []) by (intros ->; cbn in P; lia). specialize (F N).
    destruct (Z.ltb_spec (0 + fold_right Z.add 0 (map de_width ds) - 1) (i_bits t)); [eauto|lia].
Qed.

(** ** C91 *)
(** In every struct that derive(Bitfield) accepts, a setter changes the bits of its
    declaration and nothing else: not the other bits of the field, not the other
    fields, and nothing that the getters of other fields and of the same attribute
    return.  What the getter returns afterwards is the value cut down (or clamped) to
    the declared width and converted to the accessor's type, by way of the field's type
    if the declaration covers all of a signed field. *)
Theorem bitfield_any_type_partial fs s n k i t d pos a u v :
  declared fs n k i t d pos a -> of_struct fs s -> de_access d = Some u -> of_value u v ->
  ~ (de_clamp d = true /\ exists q, u = VInt q /\ i_signed q = true /\ i_bits q <= de_width d) ->
  exists s', struct_set t n a s v = Ret s' /\ of_struct fs s' /\
    struct_get t n a s' = Ret (
      if de_width d =? 1 then fitted d v
      else value_cast u (if i_signed t && (de_width d =? i_bits t) then int_cast t (fitted d v) else fitted d v)) /\
    (forall m l j t' d' pos' b, declared fs m l j t' d' pos' b -> m <> n \/ l = k /\ j <> i -> struct_get t' m b s' = struct_get t' m b s) /\
    (forall m, m <> n -> nth_error s' m = nth_error s m) /\
    (forall x x' p, nth_error s n = Some x -> nth_error s' n = Some x' -> 0 <= p < i_bits t -> p < pos \/ pos + de_width d <= p -> Z.testbit x' p = Z.testbit x p).
Proof.
  intros HD HS Hu Hv Hc. destruct (declared_fits _ _ _ _ _ _ _ _ _ HD HS) as (x & Ex & HB & Hx & HF & W & C & U & P). rewrite Hu in U. inversion U; subst u. clear U.
  assert (Hv' : in_value (ia_ty a) v) by (destruct (ia_ty a); exact Hv).
  pose proof (setter_bits t a x v HF Hx Hv') as SB.
  assert (NP : ia_panics a = false).
  { unfold ia_panics. rewrite C. destruct (de_clamp d) eqn:Cl; [|reflexivity]. destruct (ia_ty a) as [|q] eqn:T; [reflexivity|]. cbn [andb]. destruct (i_signed q) eqn:Sq; [|reflexivity]. cbn [andb].
    destruct (Z.leb_spec (i_bits q) (ia_width a)); [|reflexivity]. exfalso. apply Hc. split; [reflexivity|]. exists q. repeat split; auto. lia. }
  rewrite NP in SB. destruct SB as (x' & E & Hx' & Bits). set (s' := upd s n x').
  assert (Ln : (n < length s)%nat) by (apply nth_error_Some; congruence).
  assert (En : nth_error s' n = Some x') by (unfold s'; apply upd_same; exact Ln).
  assert (Em : forall m, m <> n -> nth_error s' m = nth_error s m) by (intros m Hm; unfold s'; apply upd_other; auto).
  assert (ES : struct_set t n a s v = Ret s').
  { unfold struct_set, vget, vset. rewrite Ex. cbn [bind]. rewrite E. cbn [bind]. destruct (Nat.ltb_spec n (length s)); [reflexivity|lia]. }
  assert (FS : fitted d v = ia_stored a v) by (unfold fitted, ia_stored; rewrite W, C; reflexivity).
  exists s'. split; [exact ES|]. split.
  { destruct HS as [Hl HS]. split; [unfold s'; rewrite upd_length; exact Hl|]. intros m t' ats y H1 H2. destruct (Nat.eq_dec m n) as [->|N].
    - rewrite En in H2. inversion H2; subst y. destruct (HS _ _ _ _ H1 Ex) as [Q _]. split; [exact Q|].
      destruct HD as (accs & ats' & ds & rows & row & _ & G1 & _). assert (Q2 : (t', ats) = (t, ats')) by congruence. inversion Q2; subst. exact Hx'.
    - rewrite Em in H2 by exact N. eapply HS; eauto. }
  pose proof HF as (F1 & F2 & F3 & F4). split.
  { unfold struct_get, vget. rewrite En. cbn [bind]. f_equal. rewrite (getter_bits t a x' HF Hx'). unfold ia_read. rewrite W.
    assert (R : ia_bits a x' = fitted d v).
    { rewrite FS. pose proof (stored_range a v ltac:(lia)) as SR. apply Z.bits_inj'. intros j Hj. rewrite ia_bits_bit by lia. destruct (Z.ltb_spec j (ia_width a)).
      - rewrite Bits by lia. destruct (Z.leb_spec (ia_offset a) (j + ia_offset a)); [|lia]. destruct (Z.ltb_spec (j + ia_offset a) (ia_offset a + ia_width a)); [|lia]. cbn [andb]. f_equal. lia.
      - rewrite (high_bit (ia_stored a v) (ia_width a)) by lia. reflexivity. }
    rewrite R. reflexivity. }
  split; [|split; [exact Em|]].
  - intros m l j t' d' pos' b HD' [N|[-> N]].
    + unfold struct_get, vget. rewrite Em by exact N. reflexivity.
    + destruct (Nat.eq_dec m n) as [->|Nm]; [|unfold struct_get, vget; rewrite Em by exact Nm; reflexivity].
      destruct (declared_apart _ _ _ _ _ _ _ _ _ _ _ _ _ HD HD' ltac:(auto) HB) as [-> A]. destruct (declared_fits _ _ _ _ _ _ _ _ _ HD' HS) as (x2 & Ex2 & _ & _ & HF' & _).
      unfold struct_get, vget. rewrite En, Ex. cbn [bind]. f_equal. rewrite !getter_bits by auto. f_equal. pose proof HF' as (K1 & K2 & K3 & _).
      apply Z.bits_inj'. intros q Hq. rewrite !ia_bits_bit by lia. destruct (Z.ltb_spec q (ia_width b)); [|reflexivity]. cbn [andb]. rewrite Bits by lia.
      destruct (Z.leb_spec (ia_offset a) (q + ia_offset b)); [|reflexivity]. destruct (Z.ltb_spec (q + ia_offset b) (ia_offset a + ia_width a)); [lia|reflexivity].
  - intros y y' p H1 H2 H3 H4. rewrite Ex in H1. rewrite En in H2. inversion H1; inversion H2; subst y y'. rewrite Bits by exact H3.
    destruct (Z.leb_spec (ia_offset a) p); [|reflexivity]. destruct (Z.ltb_spec p (ia_offset a + ia_width a)); [lia|reflexivity].
Qed.

(** So a value that fits is read back, unless the declaration covers all of a signed
    field or the setter panics. *)
Theorem bitfield_reads_back_partial fs s n k i t d pos a u v :
  declared fs n k i t d pos a -> of_struct fs s -> de_access d = Some u -> of_value u v -> 0 <= v < 2 ^ de_width d ->
  ~ (de_clamp d = true /\ exists q, u = VInt q /\ i_signed q = true /\ i_bits q <= de_width d) ->
  ~ (i_signed t = true /\ de_width d = i_bits t /\ de_width d <> 1) ->
  exists s', struct_set t n a s v = Ret s' /\ struct_get t n a s' = Ret v.
Proof.
  intros HD HS Hu Hv Hr Hc Hn. destruct (bitfield_any_type_partial _ _ _ _ _ _ _ _ _ _ _ HD HS Hu Hv Hc) as (s' & E & _ & G & _). exists s'. split; [exact E|]. rewrite G. f_equal.
  assert (Fv : fitted d v = v) by (unfold fitted; destruct (de_clamp d); [lia|apply Z.mod_small; lia]). rewrite Fv.
  destruct (Z.eqb_spec (de_width d) 1); [reflexivity|]. destruct (i_signed t) eqn:S1; cbn [andb].
  - destruct (Z.eqb_spec (de_width d) (i_bits t)); [exfalso; apply Hn; auto|]. destruct u as [|q]; [reflexivity|]. cbn. destruct Hv. apply cast_id; auto.
  - destruct u as [|q]; [reflexivity|]. cbn. destruct Hv. apply cast_id; auto.
Qed.

(** The setters excluded above always panic. *)
Theorem bitfield_clamp_panics fs s n k i t d pos a q v :
  declared fs n k i t d pos a -> of_struct fs s -> de_access d = Some (VInt q) -> of_value (VInt q) v ->
  de_clamp d = true -> i_signed q = true -> i_bits q <= de_width d ->
  struct_set t n a s v = Panic PAssert.
Proof.
  intros HD HS Hu Hv Cl Sq Bq. destruct (declared_fits _ _ _ _ _ _ _ _ _ HD HS) as (x & Ex & HB & Hx & HF & W & C & U & P). rewrite Hu in U. inversion U as [T].
  assert (Hv' : in_value (ia_ty a) v) by (rewrite <- T; exact Hv). pose proof (setter_bits t a x v HF Hx Hv') as SB.
  unfold ia_panics in SB. rewrite <- T, C, Cl, Sq, W in SB. destruct (Z.leb_spec (i_bits q) (de_width d)); [|lia]. cbn [andb] in SB.
  unfold struct_set, vget. rewrite Ex. cbn [bind]. rewrite SB. reflexivity.
Qed.

(** ** What does not hold *)
Definition i8 := mkInt true 8. Definition u8 := mkInt false 8. Definition u32 := mkInt false 32. Definition i32 := mkInt true 32.
Ltac at_decl := do 5 eexists; split; [reflexivity|repeat split; reflexivity].
Ltac is_struct := split; [reflexivity|]; intros [|[|[|?]]] ? ? ? H1 H2; cbn in H1, H2; try discriminate; inversion H1; subst; inversion H2; subst; cbv; intuition discriminate.

(** [#[bitfield(8 => value: u32)]] on a field of type [i8]: 200 reads back as
    4294967240. *)
Theorem bitfield_full_signed_refuted : exists fs s a,
  declared fs 0 0 0 i8 (mkDeclZ 8 false (Some (VInt u32))) 0 a /\ of_struct fs s /\
  exists s', struct_set i8 0 a s 200 = Ret s' /\ struct_get i8 0 a s' = Ret 4294967240.
Proof.
  exists [(i8, [[mkDeclZ 8 false (Some (VInt u32))]])], [0]. eexists. split; [at_decl|]. split; [is_struct|]. eexists. split; reflexivity.
Qed.
(** [#[bitfield(4 => value: i8)]] on a field of type [u8]: -1 reads back as 15. *)
Theorem bitfield_negative_refuted : exists fs s a,
  declared fs 0 0 0 u8 (mkDeclZ 4 false (Some (VInt i8))) 0 a /\ of_struct fs s /\
  exists s', struct_set u8 0 a s (-1) = Ret s' /\ struct_get u8 0 a s' = Ret 15.
Proof.
  exists [(u8, [[mkDeclZ 4 false (Some (VInt i8))]])], [0]. eexists. split; [at_decl|]. split; [is_struct|]. eexists. split; reflexivity.
Qed.
(** Two attributes on the same field share their bits: setting the field of one
    changes the field of the other. *)
Theorem bitfield_two_attributes_refuted : exists fs s a b,
  declared fs 0 0 0 u8 (mkDeclZ 4 false (Some (VInt u8))) 0 a /\ declared fs 0 1 0 u8 (mkDeclZ 4 false (Some (VInt u8))) 0 b /\ of_struct fs s /\
  struct_get u8 0 b s = Ret 0 /\ exists s', struct_set u8 0 a s 9 = Ret s' /\ struct_get u8 0 b s' = Ret 9.
Proof.
  exists [(u8, [[mkDeclZ 4 false (Some (VInt u8))]; [mkDeclZ 4 false (Some (VInt u8))]])], [0]. do 2 eexists. split; [at_decl|]. split; [at_decl|]. split; [is_struct|]. split; [reflexivity|]. eexists. split; reflexivity.
Qed.

(** ** Examples *)
Example bitfield_accepted_example : acceptable [(u8, [[mkDeclZ 7 true (Some (VInt i8)); mkDeclZ 1 false (Some VBool)]; [mkDeclZ 8 false None]])] /\
  ~ acceptable [(u8, [[mkDeclZ 7 true (Some (VInt i8)); mkDeclZ 2 false None]])].
Proof. split; [apply bitfield_accepted; eexists; reflexivity|]. intros H. apply bitfield_accepted in H. destruct H as [x E]. cbn in E. discriminate. Qed.
(** Two fields: a signed byte with a flag, two unused bits and a clamped three-bit
    counter of a signed type; a word with a signed byte in it. *)
Definition example_struct : struct :=
  [(i8, [[mkDeclZ 1 false (Some VBool); mkDeclZ 2 false None; mkDeclZ 3 true (Some (VInt i32))]]);
   (u32, [[mkDeclZ 8 false (Some (VInt i8)); mkDeclZ 24 false (Some (VInt u32))]])].
Example bitfield_any_type_example : exists a b, let s := [-1; 77] in
  declared example_struct 0 0 2 i8 (mkDeclZ 3 true (Some (VInt i32))) 3 a /\
  declared example_struct 1 0 0 u32 (mkDeclZ 8 false (Some (VInt i8))) 0 b /\ of_struct example_struct s /\
  struct_set i8 0 a s (-5) = Ret [-57; 77] /\ struct_get i8 0 a [-57; 77] = Ret 0 /\
  struct_set i8 0 a [-57; 77] 100 = Ret [-1; 77] /\ struct_get i8 0 a [-1; 77] = Ret 7 /\
  struct_set u32 1 b s (-2) = Ret [-1; 254] /\ struct_get u32 1 b [-1; 254] = Ret (-2).
Proof. do 2 eexists. cbv zeta. split; [at_decl|]. split; [at_decl|]. split; [is_struct|]. repeat split; reflexivity. Qed.
Example bitfield_clamp_panics_example : exists a, declared [(u8, [[mkDeclZ 8 true (Some (VInt i8))]])] 0 0 0 u8 (mkDeclZ 8 true (Some (VInt i8))) 0 a /\
  of_struct [(u8, [[mkDeclZ 8 true (Some (VInt i8))]])] [0] /\ struct_set u8 0 a [0] 1 = Panic PAssert.
Proof. eexists. split; [at_decl|]. split; [is_struct|]. reflexivity. Qed.

Print Assumptions bitfield_accepted.
Print Assumptions bitfield_any_type_partial.
Print Assumptions bitfield_reads_back_partial.
Print Assumptions bitfield_clamp_panics.
Print Assumptions bitfield_full_signed_refuted.
Print Assumptions bitfield_negative_refuted.
Print Assumptions bitfield_two_attributes_refuted.
