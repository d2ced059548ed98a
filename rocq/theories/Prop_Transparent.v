(** C88: the views provided by [derive(Transparent)]. *)
From Coq Require Import NArith List Bool Arith Lia ZifyN ZifyNat ZifyBool.
From Verif Require Import Model_Transparent.
Import ListNotations.
Local Open Scope N_scope.

(** ** Specification *)
(** What Rust guarantees for every type *)
Definition wf_ty (t : rty) : Prop := (exists k, ty_align t = 2 ^ k) /\ (ty_align t | ty_size t).
(** The types of the fields *)
Definition fields_of (it : item) : list rty := match it_data it with DStruct fs => fs | _ => [] end.
(** The value [bytes] of a struct has the first field [bytes'] (or there is none). *)
Definition first_field (it : item) (os : list N) (bytes bytes' : list N) : Prop :=
  match fields_of it, os with
  | f :: _, o :: _ => bytes' = part f o bytes
  | [], [] => bytes' = []
  | _, _ => False
  end.
(** A reference must be aligned. *)
Definition aligned (t : rty) (s : slice) : Prop := (ty_align t | sl_addr s).
(** Writing bytes to memory, and a value to element [i] of a slice *)
Definition store (m : N -> N) (a : N) (bytes : list N) : N -> N :=
  fun x => if (a <=? x) && (x <? a + N.of_nat (length bytes)) then nth (N.to_nat (x - a)) bytes 0 else m x.
Definition store_elem (m : N -> N) (t : rty) (s : slice) (i : N) (bytes : list N) : N -> N :=
  store m (sl_addr s + i * ty_size t) bytes.

(** ** Layout *)
Lemma round_up_0 a : 0 < a -> round_up a 0 = 0.
Proof. intro H. unfold round_up. rewrite N.div_small by lia. reflexivity. Qed.
Lemma wf_pos t : wf_ty t -> 0 < ty_align t.
Proof. intros [[k ->] _]. apply N.neq_0_lt_0, N.pow_nonzero. lia. Qed.
Lemma pow_divide i j : 2 ^ i <= 2 ^ j -> (2 ^ i | 2 ^ j).
Proof.
  intro H. assert (i <= j). { destruct (N.le_gt_cases i j); auto. pose proof (N.pow_lt_mono_r 2 j i ltac:(lia) ltac:(lia)). lia. }
  exists (2 ^ (j - i)). rewrite <- N.pow_add_r. f_equal. lia.
Qed.
Lemma c_align fs : Forall wf_ty fs -> forall off al, (exists k, al = 2 ^ k) ->
  let '(os, e, a) := c_layout fs off al in
  (exists k, a = 2 ^ k) /\ al <= a /\ Forall (fun f => ty_align f <= a) fs /\ (a = al \/ Exists (fun f => a = ty_align f) fs) /\ length os = length fs.
Proof.
  induction 1 as [|f fs Hf H IH]; intros off al Ha; cbn [c_layout].
  - repeat split; auto. lia.
  - assert (Hm : exists k, N.max al (ty_align f) = 2 ^ k). { destruct (N.max_spec al (ty_align f)) as [[_ ->]|[_ ->]]; [apply Hf|auto]. }
    specialize (IH (round_up (ty_align f) off + ty_size f) (N.max al (ty_align f)) Hm).
    destruct (c_layout fs _ _) as [[os e] a]. destruct IH as (I1 & I2 & I3 & I4 & I5). split; [auto|]. split; [lia|]. split; [constructor; [lia|auto]|].
    split; [|cbn; congruence]. destruct I4 as [I4|I4]; [|right; apply Exists_cons_tl; auto].
    destruct (N.max_spec al (ty_align f)) as [[_ X]|[_ X]]; [right; constructor; lia|left; lia].
Qed.

Lemma transparent_inv it os t st : Forall wf_ty (fields_of it) -> transparent it = Some (os, t, st) ->
  ty_size t = ty_size st /\ (ty_align st | ty_align t) /\ length os = length (fields_of it) /\ 0 < ty_align t /\
  (Forall (fun f => ty_align f <= ty_align st) (fields_of it) -> ty_align t = ty_align st) /\
  match fields_of it, os with f :: _, o :: _ => st = f /\ o = 0 | [], [] => st = ty_unit | _, _ => False end.
Proof.
  unfold transparent, derive_transparent, fields_of. intros Hw H. destruct (it_data it) as [| |fs]; try discriminate.
  destruct (check_attrs (it_attrs it) false) as [[|]|]; try discriminate.
  destruct (struct_layout (hints_of (it_attrs it)) fs) as [[os' t']|] eqn:E; [|discriminate].
  destruct (ty_size t' =? _) eqn:Es; [|discriminate]. apply N.eqb_eq in Es. injection H as -> -> <-.
  split; [exact Es|]. unfold struct_layout in E.
  destruct (hints_of (it_attrs it)) as [|h hs] eqn:Eh; [discriminate|].
  destruct (list_eq_dec (fun a b : repr_arg => ltac:(decide equality) : {a = b} + {a <> b}) (h :: hs) [RTransparent]) as [EE|NE].
  - injection EE as -> ->. assert (Q : os = map (fun _ => 0) fs /\ ((t = ty_unit /\ Forall (fun f => trivial f = true) fs) \/ (In t fs /\ Forall (fun f => trivial f = true \/ f = t) fs))).
    { destruct (filter _ fs) as [|f [|? ?]] eqn:Ef; try discriminate; injection E as <- <-; (split; [reflexivity|]).
      - left. split; auto. apply Forall_forall. intros f Hf. destruct (trivial f) eqn:T; auto. exfalso.
        assert (In f (filter (fun f => negb (trivial f)) fs)) by (apply filter_In; rewrite T; auto). rewrite Ef in H. exact H.
      - right. assert (Hin : In f (filter (fun f => negb (trivial f)) fs)) by (rewrite Ef; left; auto). split; [apply filter_In in Hin; tauto|].
        apply Forall_forall. intros g Hg. destruct (trivial g) eqn:T; auto. right.
        assert (X : In g (filter (fun f => negb (trivial f)) fs)) by (apply filter_In; rewrite T; auto). rewrite Ef in X. destruct X as [->|[]]. reflexivity. }
    destruct Q as [-> Q]. assert (Htriv : forall f, trivial f = true -> ty_size f = 0 /\ ty_align f = 1).
    { intros f X. unfold trivial in X. apply andb_true_iff in X as [X1 X2]. split; apply N.eqb_eq; auto. }
    assert (Pt : 0 < ty_align t). { destruct Q as [[-> _]|[Q _]]; [reflexivity|]. apply wf_pos. rewrite Forall_forall in Hw. auto. }
    destruct fs as [|f fs].
    + destruct Q as [[-> _]|[[] _]]. cbn in *. repeat split; auto. apply N.divide_refl.
    + cbn [map]. cbn in Es. assert (Al : (ty_align f | ty_align t)).
      { destruct Q as [[-> Q]|[_ Q]]; inversion Q; subst.
        - destruct (Htriv f H1) as [_ ->]. apply N.divide_refl.
        - destruct H1 as [H1| ->]; [destruct (Htriv f H1) as [_ ->]; apply N.divide_1_l|apply N.divide_refl]. }
      split; [exact Al|]. split; [cbn; now rewrite map_length|]. split; [exact Pt|]. split; [|auto].
      intro HF. destruct Q as [[-> Q]|[Q1 Q]].
      * inversion Q; subst. destruct (Htriv f H1) as [_ ->]. reflexivity.
      * rewrite Forall_forall in HF. specialize (HF t Q1). apply N.divide_pos_le in Al; [|exact Pt]. lia.
  - assert (E' : (if negb false && forallb (fun h => match h with RC => true | _ => false end) (h :: hs) then
        let '(os, e, a) := c_layout fs 0 1 in Some (os, mkTy (round_up a e) a) else None) = Some (os, t)).
    { destruct h; [destruct hs; [congruence|]|..]; exact E. }
    clear E. cbn [negb] in E'. destruct (true && forallb _ (h :: hs)); [|discriminate].
    pose proof (c_align fs Hw 0 1 ltac:(exists 0; reflexivity)) as L.
    destruct (c_layout fs 0 1) as [[os' e] a] eqn:El. injection E' as <- <-. destruct L as ([k Hk] & L2 & L3 & L4 & L5). cbn [ty_align].
    assert (S1 : (ty_align (match fs with f :: _ => f | [] => ty_unit end) | a)).
    { destruct fs as [|f fs]; [apply N.divide_1_l|]. inversion L3; subst. inversion Hw; subst. destruct H3 as [[j Hj] _]. rewrite Hj in H1 |- *. apply pow_divide. exact H1. }
    split; [exact S1|]. split; [exact L5|]. split; [lia|]. split.
    + intro HF. destruct fs as [|f fs]; [destruct L4 as [->|X]; [reflexivity|inversion X]|].
      assert (0 < ty_align f) by (inversion Hw; subst; apply wf_pos; auto).
      apply N.divide_pos_le in S1; [|lia]. destruct L4 as [L4|L4]; [lia|]. apply Exists_exists in L4 as (g & G1 & G2). rewrite Forall_forall in HF. specialize (HF g G1). lia.
    + destruct fs as [|f fs]; destruct os' as [|o os']; cbn in L5; try discriminate; auto. split; [reflexivity|].
      cbn [c_layout] in El. destruct (c_layout fs _ _) as [[? ?] ?]. injection El as <- _ _ _. apply round_up_0. inversion Hw; subst. apply wf_pos; auto.
Qed.

(** ** The layout of structs *)
Lemma round_up_spec a x : 0 < a -> (a | round_up a x) /\ x <= round_up a x < x + a.
Proof.
  intro H. unfold round_up. split; [exists ((x + a - 1) / a); reflexivity|].
  pose proof (N.div_mod (x + a - 1) a ltac:(lia)). pose proof (N.mod_lt (x + a - 1) a ltac:(lia)). nia.
Qed.
Lemma c_layout_spec fs : Forall wf_ty fs -> forall off al,
  let '(os, e, a) := c_layout fs off al in
  off <= e /\ Forall2 (fun f o => (ty_align f | o) /\ off <= o /\ o + ty_size f <= e) fs os /\
  (forall i j f g o p, (i < j)%nat -> nth_error fs i = Some f -> nth_error fs j = Some g -> nth_error os i = Some o -> nth_error os j = Some p -> o + ty_size f <= p).
Proof.
  induction 1 as [|f fs Hf H IH]; intros off al; cbn [c_layout].
  - split; [lia|]. split; [constructor|]. intros [|i] j; discriminate.
  - destruct (round_up_spec (ty_align f) off (wf_pos f Hf)) as [R1 R2].
    specialize (IH (round_up (ty_align f) off + ty_size f) (N.max al (ty_align f))). destruct (c_layout fs _ _) as [[os e] a]. destruct IH as (I1 & I2 & I3).
    split; [lia|]. split.
    + constructor; [split; [exact R1|lia]|]. clear - I2 R2. induction I2 as [|g o fs os (G1 & G2 & G3) I2 IH]; constructor; [split; [exact G1|lia]|exact IH].
    + intros [|i] [|j] f' g o p L; try lia; cbn [nth_error]; intros F G O P.
      * injection F as <-. injection O as <-.
        assert (X : forall fs os j g p, Forall2 (fun f0 o => (ty_align f0 | o) /\ round_up (ty_align f) off + ty_size f <= o /\ o + ty_size f0 <= e) fs os -> nth_error fs j = Some g -> nth_error os j = Some p -> round_up (ty_align f) off + ty_size f <= p).
        { clear. intros fs os j g p X. revert j. induction X; intros [|j] G P; try discriminate; cbn in *; [injection P as <-; tauto|eauto]. }
        eapply X; eauto.
      * apply (I3 i j f' g o p); auto; lia.
Qed.

(** What the views rely on and Rust guarantees: the size of a struct is a multiple of its
    alignment, every field is aligned and inside, and no byte belongs to two fields. *)
Theorem struct_layout_sound hints fs os t :
  Forall wf_ty fs -> struct_layout hints fs = Some (os, t) ->
  wf_ty t /\
  Forall2 (fun f o => (ty_align f | ty_align t) /\ (ty_align f | o) /\ o + ty_size f <= ty_size t) fs os /\
  (forall i j f g o p x, i <> j -> nth_error fs i = Some f -> nth_error fs j = Some g -> nth_error os i = Some o -> nth_error os j = Some p ->
     o <= x < o + ty_size f -> ~ p <= x < p + ty_size g).
Proof.
  intros Hw E. destruct (list_eq_dec (fun a b : repr_arg => ltac:(decide equality) : {a = b} + {a <> b}) hints [RTransparent]) as [->|NE].
  - cbn [struct_layout] in E.
    assert (Htriv : forall f, trivial f = true -> ty_size f = 0 /\ ty_align f = 1).
    { intros f X. unfold trivial in X. apply andb_true_iff in X as [X1 X2]. split; apply N.eqb_eq; auto. }
    assert (Q : os = map (fun _ => 0) fs /\ wf_ty t /\ Forall (fun f => trivial f = true \/ f = t) fs /\ (length (filter (fun f => negb (trivial f)) fs) <= 1)%nat).
    { destruct (filter _ fs) as [|f [|? ?]] eqn:Ef; try discriminate; injection E as <- <-; (split; [reflexivity|]).
      - split; [split; [exists 0; reflexivity|exists 0; reflexivity]|]. split; [|cbn; lia]. apply Forall_forall. intros f Hf. destruct (trivial f) eqn:T; auto. exfalso.
        assert (In f (filter (fun f => negb (trivial f)) fs)) by (apply filter_In; rewrite T; auto). rewrite Ef in H. exact H.
      - assert (Hin : In f (filter (fun f => negb (trivial f)) fs)) by (rewrite Ef; left; auto). split; [rewrite Forall_forall in Hw; apply Hw; apply filter_In in Hin; tauto|]. split; [|cbn; lia].
        apply Forall_forall. intros g Hg. destruct (trivial g) eqn:T; auto. right.
        assert (X : In g (filter (fun f => negb (trivial f)) fs)) by (apply filter_In; rewrite T; auto). rewrite Ef in X. destruct X as [->|[]]. reflexivity. }
    destruct Q as (-> & Wt & Q & L1). split; [exact Wt|]. split.
    + clear - Q Htriv. induction Q as [|f fs [T| ->] Q IH]; cbn [map]; constructor; auto.
      * destruct (Htriv f T) as [-> ->]. split; [apply N.divide_1_l|]. split; [apply N.divide_1_l|lia].
      * split; [apply N.divide_refl|]. split; [apply N.divide_0_r|lia].
    + intros i j f g o p x N F G O P. intros X Y.
      assert (Tf : trivial f = false). { destruct (trivial f) eqn:T; auto. destruct (Htriv f T). lia. }
      assert (Tg : trivial g = false). { destruct (trivial g) eqn:T; auto. destruct (Htriv g T). lia. }
      clear - N F G Tf Tg L1. revert i j N F G. induction fs as [|h fs IH]; intros [|i] [|j] N F G; try discriminate; try (now elim N); cbn [nth_error filter] in *.
      * injection F as ->. rewrite Tf in L1. cbn in L1. apply nth_error_In in G. assert (X : In g (filter (fun f => negb (trivial f)) fs)) by (apply filter_In; rewrite Tg; auto). destruct (filter _ fs); [destruct X|cbn in L1; lia].
      * injection G as ->. rewrite Tg in L1. cbn in L1. apply nth_error_In in F. assert (X : In f (filter (fun f => negb (trivial f)) fs)) by (apply filter_In; rewrite Tf; auto). destruct (filter _ fs); [destruct X|cbn in L1; lia].
      * apply (IH ltac:(destruct (negb (trivial h)); cbn in L1; lia) i j); auto.
  - assert (E' : (if negb (match hints with [] => true | _ => false end) && forallb (fun h => match h with RC => true | _ => false end) hints then
        let '(os, e, a) := c_layout fs 0 1 in Some (os, mkTy (round_up a e) a) else None) = Some (os, t)).
    { destruct hints as [|h hs]; [exact E|]. destruct h; [destruct hs; [congruence|]|..]; exact E. }
    destruct (_ && _); [|discriminate].
    pose proof (c_align fs Hw 0 1 ltac:(exists 0; reflexivity)) as L. pose proof (c_layout_spec fs Hw 0 1) as M.
    destruct (c_layout fs 0 1) as [[os' e] a]. injection E' as -> <-. destruct L as ([k Hk] & _ & L3 & _ & _). destruct M as (M1 & M2 & M3).
    assert (Pa : 0 < a) by (rewrite Hk; apply N.neq_0_lt_0, N.pow_nonzero; lia).
    destruct (round_up_spec a e Pa) as [R1 R2]. cbn [ty_align ty_size]. split; [split; [exists k; exact Hk|exact R1]|]. split.
    + assert (X : Forall (fun f => (ty_align f | a)) fs).
      { rewrite Forall_forall in *. intros f Hf. destruct (Hw f Hf) as [[j Hj] _]. specialize (L3 f Hf). rewrite Hj, Hk in *. apply pow_divide. lia. }
      clear - M2 X R2. induction M2 as [|f o fs os (H1 & H2 & H3) M2 IH]; constructor; inversion X; subst; auto. split; [auto|]. split; [auto|lia].
    + intros i j f g o p x N F G O P X Y. destruct (Nat.lt_total i j) as [Lt|[Eq|Gt]]; [|lia|].
      * pose proof (M3 i j f g o p Lt F G O P). lia.
      * pose proof (M3 j i g f p o Gt G F P O). lia.
Qed.

Lemma part_all t bs : length bs = N.to_nat (ty_size t) -> part t 0 bs = bs.
Proof. intro H. unfold part. cbn [N.to_nat skipn]. rewrite <- H. apply firstn_all. Qed.

(** ** C88 *)
(** Whenever [derive(Transparent)] compiles, [into_storage] of a value returns the value
    of its first field (of nothing, if there is none), and nothing is lost: the value
    comes back from the storage. *)
Theorem transparent_values it os t st bytes :
  Forall wf_ty (fields_of it) -> transparent it = Some (os, t, st) -> length bytes = N.to_nat (ty_size t) ->
  first_field it os bytes (into_storage bytes) /\ length (into_storage bytes) = N.to_nat (ty_size st) /\
  from_storage (into_storage bytes) = bytes.
Proof.
  intros Hw H Hl. destruct (transparent_inv _ _ _ _ Hw H) as (E & _ & _ & _ & _ & I). unfold into_storage, from_storage, first_field.
  split; [|split; [congruence|reflexivity]].
  destruct (fields_of it) as [|f fs]; destruct os as [|o os]; try contradiction.
  - subst st. cbn in E. rewrite E in Hl. now apply length_zero_iff_nil in Hl.
  - destruct I as [-> ->]. symmetry. apply part_all. congruence.
Qed.

(** The same for arrays, element by element. *)
Theorem transparent_arrays it os t st n bytes :
  Forall wf_ty (fields_of it) -> transparent it = Some (os, t, st) -> length bytes = N.to_nat (ty_size (ty_array t n)) ->
  let bytes' := array_into_storage st n bytes in
  length bytes' = N.to_nat (ty_size (ty_array st n)) /\
  (forall i, i < n -> part st (i * ty_size st) bytes' = into_storage (part t (i * ty_size t) bytes)) /\
  array_from_storage t n bytes' = bytes.
Proof.
  intros Hw H Hl bytes'. destruct (transparent_inv _ _ _ _ Hw H) as (E & _). unfold bytes', array_into_storage, array_from_storage.
  assert (Q : part (ty_array st n) 0 bytes = bytes) by (apply part_all; cbn in *; congruence). rewrite Q.
  split; [cbn in *; congruence|]. split; [|apply part_all; auto]. intros i Hi. unfold part, into_storage. now rewrite E.
Qed.

(** And for references and slices: a well-aligned reference gives a well-aligned
    reference to the storage of the same elements; what is written to an element of the
    storage is written to that element and no other. *)
Theorem transparent_refs it os t st m s :
  Forall wf_ty (fields_of it) -> transparent it = Some (os, t, st) -> aligned t s ->
  let s' := ref_into_storage s in
  aligned st s' /\ sl_len s' = sl_len s /\ ref_from_storage s' = s /\
  (forall i, elem m st s' i = into_storage (elem m t s i)) /\
  (forall i j bytes, length bytes = N.to_nat (ty_size st) ->
     elem (store_elem m st s' i bytes) t s j = if i =? j then from_storage bytes else elem m t s j).
Proof.
  intros Hw H Ha s'. destruct (transparent_inv _ _ _ _ Hw H) as (E & D & _). unfold s', ref_into_storage, ref_from_storage, aligned in *. cbn [sl_addr sl_len].
  split; [eapply N.divide_trans; eauto|]. split; [reflexivity|]. split; [now destruct s|]. split.
  - intro i. unfold elem, into_storage. cbn [sl_addr]. now rewrite E.
  - intros i j bytes Hb. rewrite <- E in Hb. unfold store_elem, elem, store, from_storage. cbn [sl_addr]. rewrite <- E, Hb.
    destruct (i =? j) eqn:Eij.
    + apply N.eqb_eq in Eij as <-. transitivity (map (fun k => nth k bytes 0) (seq 0 (length bytes))).
      * rewrite Hb. apply map_ext_in. intros k Hk. apply in_seq in Hk.
        replace (_ && _) with true by (symmetry; apply andb_true_iff; split; [apply N.leb_le|apply N.ltb_lt]; lia). f_equal. lia.
      * clear. induction bytes as [|b bs IH]; [reflexivity|]. cbn [length seq map nth]. f_equal. rewrite <- seq_shift, map_map. exact IH.
    + apply N.eqb_neq in Eij. apply map_ext_in. intros k Hk. apply in_seq in Hk.
      replace (_ && _) with false; [reflexivity|]. symmetry. apply andb_false_iff.
      destruct (N.lt_ge_cases i j); [right; apply N.ltb_ge; nia|left; apply N.leb_gt; nia].
Qed.

(** The way back is not always allowed. A reference to the storage gives a well-aligned
    reference to the struct if no other field needs a larger alignment than the first one. *)
Theorem transparent_from_partial it os t st s :
  Forall wf_ty (fields_of it) -> transparent it = Some (os, t, st) ->
  Forall (fun f => ty_align f <= ty_align st) (fields_of it) ->
  aligned st s -> aligned t (ref_from_storage s).
Proof.
  intros Hw H HF Ha. destruct (transparent_inv _ _ _ _ Hw H) as (_ & _ & _ & _ & A & _). unfold aligned, ref_from_storage in *. cbn [sl_addr]. now rewrite (A HF).
Qed.

(** Otherwise it need not be: there is a header type with two header words for which the
    derive compiles, and the clause arena, which keeps words, hands out a misaligned
    reference to it, at every other word. *)
Theorem transparent_from_refuted :
  exists it os t, Forall wf_ty (fields_of it) /\ transparent it = Some (os, t, ty_array ty_u32 2) /\
  forall base w, aligned ty_u32 (mkSlice base 1) ->
    let s w := mkSlice (header_addr base w) 1 in
    aligned (ty_array ty_u32 2) (s w) /\ (~ aligned t (ref_from_storage (s w)) \/ ~ aligned t (ref_from_storage (s (w + 1)))).
Proof.
  exists (mkItem [ARepr [RC]] (DStruct [ty_array ty_u32 2; mkTy 0 8])), [0; 8], (mkTy 8 8).
  split; [repeat constructor; try (exists 2; reflexivity); try (exists 3; reflexivity); cbn; try (exists 2; reflexivity); exists 0; reflexivity|].
  split; [reflexivity|]. unfold aligned, header_addr, ref_from_storage. cbn. intros base w [k Hk]. split; [exists (k + w); lia|].
  destruct (N.Even_or_Odd (k + w)) as [[z Hz]|[z Hz]]; [right|left]; intros [y Hy]; lia.
Qed.

(** The macro accepts exactly the structs whose [repr] attributes are not empty and have no
    other arguments than [transparent] and [C]. *)
Theorem transparent_accepts it : derive_transparent it <> None <->
  (exists fs, it_data it = DStruct fs) /\
  (exists args a, In (ARepr args) (it_attrs it) /\ In a args) /\
  (forall args a, In (ARepr args) (it_attrs it) -> In a args -> a = RTransparent \/ a = RC).
Proof.
  assert (A : forall args b, check_repr_args args b = if forallb (fun a => match a with ROther => false | _ => true end) args then Some (b || match args with [] => false | _ => true end) else None).
  { induction args as [|a args IH]; intro b; cbn; [now rewrite orb_false_r|]. destruct a; cbn; auto; rewrite IH; destruct (forallb _ args); auto; now rewrite orb_true_r. }
  assert (B : forall attrs b, check_attrs attrs b = Some true <->
     (b = true \/ exists args a, In (ARepr args) attrs /\ In a args) /\ (forall args a, In (ARepr args) attrs -> In a args -> a = RTransparent \/ a = RC)).
  { induction attrs as [|[args|] attrs IH]; intro b; cbn [check_attrs].
    - split; [intro H; injection H as ->; split; [auto|contradiction]|intros [[->|(? & ? & [] & _)] _]; reflexivity].
    - rewrite A. destruct (forallb _ args) eqn:Ef.
      + rewrite IH. rewrite forallb_forall in Ef. split.
        * intros [H1 H2]. split; [|intros args' a [X|X] Ha; [injection X as <-; specialize (Ef a Ha); destruct a; auto; discriminate|eauto]].
          destruct H1 as [H1|(args' & a & H1 & H3)]; [|right; exists args', a; cbn; auto].
          destruct b; [auto|]. destruct args as [|a args]; [discriminate|]. right. exists (a :: args), a. cbn. auto.
        * intros [H1 H2]. split; [|intros args' a Hx Ha; apply (H2 args' a); cbn; auto].
          destruct H1 as [->|(args' & a & [X|X] & Ha)]; [auto|injection X as <-; left; destruct args; [destruct Ha|]; apply orb_true_r|right; eauto].
      + split; [discriminate|]. intros [_ H2]. exfalso. rewrite <- not_true_iff_false in Ef. apply Ef. apply forallb_forall. intros a Ha.
        destruct (H2 args a (or_introl eq_refl) Ha) as [-> | ->]; reflexivity.
    - rewrite IH. split; intros [H1 H2]; (split; [destruct H1 as [H1|(args' & a & X & Y)]; [auto|right; exists args', a]|]).
      + cbn; auto.
      + intros args' a [X|X]; [discriminate|eauto].
      + destruct X as [X|X]; [discriminate|auto].
      + intros args' a X. apply H2. cbn. auto. }
  unfold derive_transparent. specialize (B (it_attrs it) false). split.
  - intro H. destruct (it_data it) as [| |fs]; [easy..|]. destruct (check_attrs _ _) as [[|]|]; [|easy..]. destruct (proj1 B eq_refl) as [[?|B1] B2]; [discriminate|]. eauto.
  - intros [[fs ->] [H1 H2]]. rewrite (proj2 B (conj (or_intror H1) H2)). discriminate.
Qed.

(** The types of this code base have the sizes of one, no and two words, and are fine in
    both directions. *)
Theorem transparent_used it words : In (it, words) [(it_word, 1); (it_empty_header, 0); (it_long_header, 2)] ->
  exists os t st, transparent it = Some (os, t, st) /\ ty_size t = words * ty_size ty_u32 /\ ty_align t = ty_align ty_u32 /\ Forall wf_ty (fields_of it) /\ Forall (fun f => ty_align f <= ty_align st) (fields_of it) /\
    (forall s, aligned st s <-> aligned t s).
Proof.
  intro H. cbn in H. destruct H as [H|[H|[H|[]]]]; injection H as <- <-; do 3 eexists; do 3 (split; [reflexivity|]);
  (split; [repeat constructor; cbn; first [exists 2; reflexivity|exists 1; reflexivity|exists 0; reflexivity]|]); (split; [repeat constructor; cbn; lia|]); intro s; reflexivity.
Qed.

(** A struct of a byte, two words and a half word *)
Example struct_layout_ex : struct_layout [RC] [mkTy 1 1; mkTy 8 4; mkTy 2 2] = Some ([0; 4; 12], mkTy 16 4) /\ Forall wf_ty [mkTy 1 1; mkTy 8 4; mkTy 2 2].
Proof.
  split; [reflexivity|]. repeat constructor; cbn.
  - now exists 0.
  - now exists 1.
  - now exists 2.
  - now exists 2.
  - now exists 1.
  - now exists 1.
Qed.

(** Two header words in memory and the header they are *)
Example transparent_ex :
  transparent it_long_header = Some ([0], mkTy 8 4, mkTy 8 4) /\ aligned (mkTy 8 4) (mkSlice 100 3) /\
  (let m a := a mod 251 in elem m (mkTy 8 4) (ref_into_storage (mkSlice 100 3)) 2 = [116; 117; 118; 119; 120; 121; 122; 123]) /\
  transparent (mkItem [ARepr [RC]] (DStruct [ty_u32; ty_u32])) = None /\
  transparent (mkItem [ARepr [RTransparent]] (DStruct [ty_unit; ty_u32])) = None /\ transparent (mkItem [AOther] (DStruct [ty_u32])) = None.
Proof. split; [reflexivity|]. split; [exists 25; reflexivity|]. repeat split. Qed.

Print Assumptions transparent_values. Print Assumptions transparent_arrays. Print Assumptions transparent_refs.
Print Assumptions transparent_from_partial. Print Assumptions transparent_from_refuted. Print Assumptions transparent_used.
Print Assumptions transparent_accepts. Print Assumptions struct_layout_sound.
