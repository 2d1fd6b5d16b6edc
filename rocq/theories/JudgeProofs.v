(** The validator judges leaves as specified. *)
From Coq Require Import List Bool ZArith NArith String Lia.
From Verif Require Import Base Util Data Value Convert Ivt Scalar Validate Fun ValueOrder
  SpecBase SpecScalar SpecVerdict FloatProofs ScalarProofs NoPanic CtxProofs SpecReach SpecJudge.
Import ListNotations.
Open Scope list_scope.

Local Ltac inv H := inversion H; subst; clear H.

Lemma decides_ok P r : decides P r -> (r = Ok tt <-> P).
Proof. destruct 1; split; auto; intros; [discriminate|contradiction]. Qed.

Lemma in_bytes_length v k : in_bytes v k <-> byte_length v k.
Proof.
  assert (E : forall t, fold_right (fun c n => char_bytes c + n)%Z 0%Z t = Z.of_nat (List.length (utf8_encode t))).
  { induction t as [|c t IH]; auto. cbn [fold_right utf8_encode flat_map]. rewrite app_length. fold (utf8_encode t). rewrite IH.
    assert (char_bytes c = Z.of_nat (List.length (utf8_encode1 c))).
    { unfold char_bytes, utf8_encode1. destruct (N.ltb c 0x80); auto.
      destruct (N.ltb c 0x800); auto. destruct (N.ltb c 0x10000); auto. }
    lia. }
  split; intros H; inv H; try constructor.
  - rewrite E. constructor.
  - rewrite <- E. constructor.
Qed.

(** * Texts *)
Section Texts.
Variable X : ext.
Lemma show_literal_text l : show_literal X l = literal_text X l.
Proof. destruct l as [[]| | | |]; reflexivity. Qed.
Lemma show_node_text n : show_node X n = part_text X n.
Proof.
  revert n. fix IH 1. intros n. destruct n; try reflexivity; try (apply show_literal_text); try (destruct p; reflexivity).
  cbn. rewrite (IH n1), (IH n2). reflexivity.
Qed.
Lemma show_range_text s e i : show_range X s e i = range_text X s e i.
Proof. unfold show_range, range_text. rewrite !show_node_text. reflexivity. Qed.
Lemma show_occur_text l n : show_occur X l n = occur_text X l n.
Proof.
  unfold show_occur, occur_text. rewrite show_node_text. destruct l as [| | |a b]; try reflexivity. cbn [symbol].
  change (2 ^ 64 - 1)%N with usize_max.
  destruct (N.eqb_spec a 0) as [->|Ha]; [destruct (N.eqb b usize_max)|]; cbn [andb]; try reflexivity;
    unfold number, show_N; rewrite <- !app_assoc; reflexivity.
Qed.
Lemma len_text_count l : len_text l = count_of l.
Proof. reflexivity. Qed.
End Texts.

Section Judge.
Variable X : ext.

Lemma size_exact p a b incl v : u64 a -> u64 b ->
  (size_target X (NLiteral (LInt a), NLiteral (LInt b), incl) v (NPrelude p) = Ok tt <-> sized p a b incl v).
Proof.
  intros Ha Hb.
  assert (St : p = PTstr \/ p = PBstr -> (size_target X (NLiteral (LInt a), NLiteral (LInt b), incl) v (NPrelude p) = Ok tt <-> sized p a b incl v)).
  { intros Hp. rewrite (decides_ok _ _ (size_string_bounds X p a b incl v Hp Ha Hb)). split.
    - intros [Hi (k & Hk & B)]. apply sized_string with k; auto. apply in_bytes_length; auto.
    - intros S. inv S; try (destruct Hp; discriminate). split; auto. exists k. split; auto. apply in_bytes_length; auto. }
  destruct p; try (apply St; auto; fail); try (cbn; split; [discriminate|intros S; inv S; match goal with H : _ \/ _ |- _ => destruct H; discriminate end]).
  clear St. cbn [size_target]. unfold validate_size_uint. rewrite size_bounds_val by auto. unfold u64 in *.
  destruct ((b <? a)%Z || ((a =? b)%Z && negb incl)) eqn:E.
  - split; [discriminate|]. intros S. exfalso. inv S.
    + rewrite Z.ltb_irrefl, Z.eqb_refl in E. discriminate.
    + unfold between in *. apply orb_true_iff in E. destruct E as [E|E].
      * apply Z.ltb_lt in E. destruct incl; lia.
      * apply andb_true_iff in E. destruct E as [E1 E2]. apply Z.eqb_eq in E1. destruct incl; [discriminate|]. lia.
    + match goal with H : _ \/ _ |- _ => destruct H; discriminate end.
  - destruct v; try (split; [discriminate|intros S; inv S; match goal with H : _ \/ _ |- _ => destruct H; discriminate end]).
    destruct (Z.ltb_spec z 0) as [Hz|Hz].
    { split; [discriminate|]. intros S. exfalso. inv S; try lia.
      - match goal with H : min_bytes _ _ |- _ => destruct H as (_ & [? _] & _) end. lia.
      - match goal with H : _ \/ _ |- _ => destruct H; discriminate end. }
    destruct (N.eqb_spec (Z.to_N a) (Z.to_N b)) as [Q|Q]; [destruct incl|].
    + assert (a = b) by lia. subst b. cbn [andb]. destruct (N.leb_spec 16 (Z.to_N a)) as [H16|H16].
      * split; auto. intros _. apply sized_uint; auto. right. lia.
      * unfold shl_i128_one. destruct (N.ltb_spec (Z.to_N a * 8) 127); [|lia]. rewrite Z.shiftl_1_l.
        replace (2 ^ Z.of_N (Z.to_N a * 8))%Z with (256 ^ a)%Z by (rewrite pow256 by lia; f_equal; lia).
        destruct (Z.ltb_spec z (256 ^ a)).
        -- split; auto. intros _. apply sized_uint; auto.
        -- split; [discriminate|]. intros S. exfalso. inv S; [lia| |match goal with H : _ \/ _ |- _ => destruct H; discriminate end].
           match goal with H : ~ _ |- _ => apply H; auto end.
    + exfalso. assert (a = b) by lia. subst b. rewrite Z.eqb_refl in E. cbn in E. rewrite orb_true_r in E. discriminate.
    + cbn [andb]. pose proof (needed_min z Hz) as M.
      set (needed := if (z =? 0)%Z then 0%N else div_ceil8 (bit_length (Z.to_N z))) in *.
      assert (U : sized PUint a b incl (VInteger z) <-> between a b incl (Z.of_N needed)).
      { split.
        - intros S. inv S; [lia| |match goal with H : _ \/ _ |- _ => destruct H; discriminate end].
          match goal with H : min_bytes z ?k |- _ => rewrite (min_bytes_unique _ _ _ M H) end. auto.
        - intros B. apply sized_uint_range with (Z.of_N needed); auto. intros [-> _]. lia. }
      rewrite U. unfold between. destruct (N.ltb_spec needed (Z.to_N a)); [split; [discriminate|lia]|].
      destruct incl.
      * destruct (N.leb_spec needed (Z.to_N b)); (split; [try discriminate; try lia|]); auto. lia.
      * destruct (N.ltb_spec needed (Z.to_N b)); (split; [try discriminate; try lia|]); auto. lia.
Qed.

Variable lk : lookup_context.
Notation L := (lookup_rule lk).

(** * Names *)
Lemma look_no_panic c name args : L c name args <> Panic.
Proof.
  intros H. destruct (lookup_rule_good (fun _ => True) lk (fun _ => Logic.I) Logic.I (fun _ _ _ => Logic.I) c name args) as [N _]. auto.
Qed.
Lemma leads c nd : (exists e, dangles lk c nd e) \/ exists nd', stands lk c nd nd'.
Proof.
  destruct (chase_spec X lk (fun _ => Ok tt) nd c) as (n & E). set (r := chase _ _ _ _ _) in E. clearbody r. revert nd c E.
  induction n as [|n IH]; cbn; intros nd c E; [discriminate|].
  destruct nd; try (right; eexists; exists c; apply named_here; discriminate).
  destruct (L c name args) as [[nd' c']|e|] eqn:Lk; [| |destruct (look_no_panic _ _ _ Lk)].
  - destruct (IH _ _ E) as [(e & n1 & a1 & c1 & F & G)|(nd2 & c2 & S)].
    + left. exists e, n1, a1, c1. split; auto. eapply follows_step; eauto.
    + right. exists nd2, c2. eapply named_step; eauto.
  - left. exists e, name, args, c. split; auto. constructor.
Qed.
Lemma dangles_chase {R} (f : node -> res R) c nd e : dangles lk c nd e -> chase X lk f nd c = Err e.
Proof.
  intros (name & args & c' & F & E). induction F as [c name args|c name args nd1 c1 name' args' c' Lk F IH]; rewrite chase_eq.
  - rewrite E. reflexivity.
  - rewrite Lk. cbn. auto.
Qed.
Lemma dangles_deref c nd e : dangles lk c nd e -> deref X lk nd c = Err e.
Proof.
  intros (name & args & c' & F & E). induction F as [c name args|c name args nd1 c1 name' args' c' Lk F IH]; rewrite deref_eq.
  - rewrite E. reflexivity.
  - rewrite Lk. cbn. auto.
Qed.

(** * Judgements and results *)
Definition matches (j : judgement) (r : res unit) : Prop :=
  match j with
  | Good => r = Ok tt
  | Poor m => r = Err (EMismatch m)
  | Faulty e => r = Err e
  end.
Definition worded (r : res unit) (m : text) : Prop := forall m', r = Err (EMismatch m') -> m' = m.
Lemma settles_decides P m j r : settles P m j -> decides P r -> worded r m -> matches j r.
Proof. intros [H|H] [H'|m' H'] W; cbn; eauto; try contradiction. rewrite (W _ eq_refl). auto. Qed.
Lemma decides_settles P r m : decides P r -> exists j, settles P m j.
Proof. intros [H|m' H]; [exists Good|exists (Poor m)]; constructor; auto. Qed.
Lemma decides_iff P Q r : (P <-> Q) -> decides P r -> decides Q r.
Proof. intros E [H|m H]; constructor; tauto. Qed.

Lemma literal_worded l v c : worded (val X lk v (NLiteral l) c) (literal_text X l).
Proof.
  intros m. rewrite val_eq. unfold validate_literal. destruct (veqb _ _); [discriminate|]. unfold mismatch. rewrite show_literal_text. congruence.
Qed.
Lemma prelude_worded p v c : worded (val X lk v (NPrelude p) c) (type_name p).
Proof.
  intros m. rewrite val_eq. destruct p, v; cbn; try discriminate; unfold mismatch; try congruence;
    match goal with |- context [if ?b then _ else _] => destruct b end; congruence.
Qed.
Lemma range_worded c s t incl l l' v : stands lk c s (NLiteral l) -> stands lk c t (NLiteral l') ->
  worded (val X lk v (NRange s t incl) c) (range_text X s t incl).
Proof.
  intros (cs & Hs) (ct & Ht) m. rewrite val_eq, (deref_named _ _ _ _ _ _ Hs), (deref_named _ _ _ _ _ _ Ht). cbn.
  rewrite show_range_text. unfold range_compare, mismatch.
  destruct l, l', v; cbn; try congruence; match goal with |- context [if ?b then _ else _] => destruct b end; congruence.
Qed.
Lemma regexp_worded re v c : worded (val X lk v (NControl (CtlRegexp re)) c)
  (match v with VText _ => txt "regex mismatch" | _ => txt "tstr" end).
Proof.
  intros m. rewrite val_eq. cbn [control_val]. unfold validate_control_regexp, mismatch. destruct v; try congruence.
  destruct (regex_match X re t); congruence.
Qed.
Lemma prelude_dec p v : in_prelude p v \/ ~ in_prelude p v.
Proof.
  destruct p, v; try (left; constructor; fail); try (right; intros Z; inversion Z; fail);
    destruct (Z_lt_le_dec z 0); try (left; constructor; lia); right; intros Z; inversion Z; lia.
Qed.
Lemma limit_said_total op p v : exists m, limit_said op p v m.
Proof. destruct (prelude_dec p v); eexists; [apply said_limit|apply said_class]; auto. Qed.
Lemma limit_said_det op p v m m' : limit_said op p v m -> limit_said op p v m' -> m = m'.
Proof. intros [H|H] [H'|H']; auto; contradiction. Qed.
Lemma cmp_worded op t l v c p n m : stands lk c l (NLiteral (LInt n)) -> stands lk c t (NPrelude p) -> In p cmp_classes ->
  limit_said op p v m -> worded (val X lk v (NControl (cmp_control op t l)) c) m.
Proof.
  intros (cl & Hl) (ct & Ht) Hp S m'. rewrite cmp_control_val, (chase_named _ _ _ _ _ _ _ Hl).
  replace (limit_fun X op (NLiteral (LInt n))) with (@Ok Z n) by (destruct op; reflexivity). cbn [bind_res].
  rewrite (chase_named _ _ _ _ _ _ _ Ht). clear Hl Ht.
  destruct Hp as [<-|[<-|[<-|[]]]]; destruct S as [S|S]; destruct op, v; cbn; unfold mismatch;
    try (intros [= <-]; reflexivity);
    try (exfalso; inversion S; fail);
    repeat match goal with
    | |- context [Z.ltb ?a ?b] => destruct (Z.ltb_spec a b)
    | |- context [Z.leb ?a ?b] => destruct (Z.leb_spec a b)
    end; try discriminate; try (intros [= <-]; reflexivity);
    try (exfalso; apply S; constructor; lia);
    try (exfalso; inversion S; lia).
Qed.
Lemma size_arg_fault_text nd m : size_arg_fault X nd m -> normalize_size_range X nd = Err (EStructural m).
Proof.
  intros H. inv H; cbn.
  - rewrite to_u64_bad by assumption. reflexivity.
  - rewrite <- show_node_text. destruct s as [lit| | | | | | | | | | | | |]; try reflexivity. destruct lit as [|z| | |]; try reflexivity. destruct (H0 z). auto.
  - rewrite <- show_node_text. destruct e as [lit| | | | | | | | | | | | |]; try reflexivity. destruct lit as [|z| | |]; try reflexivity. destruct (H0 z). auto.
  - rewrite to_u64_bad by assumption. reflexivity.
  - rewrite to_u64_ok, to_u64_bad by assumption. reflexivity.
  - rewrite <- show_node_text. destruct nd as [lit| | | | | | | | | |s e i| | |]; try reflexivity.
    + destruct lit as [|z| | |]; try reflexivity. destruct (H0 z). auto.
    + destruct (H1 s e i). auto.
Qed.

Lemma range_decides c s t incl l l' v : stands lk c s (NLiteral l) -> stands lk c t (NLiteral l') -> same_kind l l' ->
  decides (within_ends incl v l l') (val X lk v (NRange s t incl) c).
Proof.
  intros (cs & Hs) (ct & Ht) K.
  assert (No : (forall a, l <> LInt a) -> (forall a, l <> LFloat a) -> decides (within_ends incl v l l') (val X lk v (NRange s t incl) c)).
  { intros H1 H2. destruct (range_no_number X lk _ _ incl _ _ v _ _ _ Hs Ht K H1 H2) as (m & ->). constructor. intros W. inv W; congruence. }
  destruct K; try (apply No; congruence).
  - eapply decides_iff; [|eapply int_range_decides; eauto]. split; [constructor; auto|]. intros W. inv W. auto.
  - eapply decides_iff; [|eapply float_range_decides; eauto]. split; [constructor; auto|]. intros W. inv W. auto.
Qed.
Lemma size_arg_inv nd a b incl : size_arg nd a b incl -> u64 a /\ u64 b /\
  normalize_size_range X nd = Ok (NLiteral (LInt a), NLiteral (LInt b), incl).
Proof.
  intros H. inv H; cbn.
  - rewrite to_u64_ok by assumption. auto.
  - rewrite !to_u64_ok by assumption. auto.
Qed.
Lemma size_arg_dec nd : (exists a b incl, size_arg nd a b incl) \/ exists m, size_arg_fault X nd m.
Proof.
  assert (D : forall z, u64 z \/ ~ u64 z) by (intros z; unfold u64; lia).
  assert (I : forall n, (exists z, n = NLiteral (LInt z)) \/ forall z, n <> NLiteral (LInt z)).
  { intros [[]| | | | | | | | | | | | |]; eauto; right; congruence. }
  destruct (I nd) as [(z & ->)|Nz].
  { destruct (D z); [left; exists z, z, true; constructor; auto|right; eexists; constructor; auto]. }
  destruct nd; try (right; eexists; apply fault_type; [exact Nz|discriminate]; fail).
  destruct (I nd1) as [(a & ->)|N1]; [|right; eexists; apply fault_start; auto].
  destruct (I nd2) as [(b & ->)|N2]; [|right; eexists; apply fault_end; auto].
  destruct (D a); [|right; eexists; apply fault_start_number; auto].
  destruct (D b); [|right; eexists; apply fault_end_number; auto].
  left. exists a, b, inclusive. constructor; auto.
Qed.
Lemma size_arg_fault_no nd m a b incl : size_arg_fault X nd m -> ~ size_arg nd a b incl.
Proof. intros F A. apply size_arg_fault_text in F. apply size_arg_inv in A. destruct A as (_ & _ & A). congruence. Qed.
Lemma size_arg_fault_det nd m m' : size_arg_fault X nd m -> size_arg_fault X nd m' -> m = m'.
Proof. intros F F'. apply size_arg_fault_text in F, F'. congruence. Qed.
Lemma between_dec a b incl : (exists k, between a b incl k) \/ forall k, ~ between a b incl k.
Proof.
  unfold between. destruct incl.
  - destruct (Z_lt_le_dec b a); [right; lia|left; exists a; lia].
  - destruct (Z_lt_le_dec a b); [left; exists a; lia|right; lia].
Qed.
Lemma size_is_fun p v k k' : size_is p v k -> size_is p v k' -> k = k'.
Proof.
  intros H H'. inv H; inv H'; [eapply min_bytes_unique; eauto| |];
    repeat match goal with B : in_bytes _ _ |- _ => inv B end; auto.
Qed.
Lemma size_is_sized p v k : size_is p v k -> ~ no_size p v.
Proof. intros H N. inv H; eapply N; reflexivity. Qed.
Lemma size_said_total p a b incl v : In p size_classes -> exists m, size_said p a b incl v m.
Proof.
  intros Hp. destruct (between_dec a b incl) as [(k & B)|E]; [|eexists; apply said_empty; auto].
  assert (U : (exists n, size_is p v n) -> exists m, size_said p a b incl v m).
  { intros (n & S). destruct (Z_lt_le_dec n a); eexists; [eapply said_under|eapply said_over]; eauto. }
  destruct Hp as [<-|[<-|[<-|[]]]]; destruct v; try (eexists; eapply said_kind; [exact B|cbn; discriminate]).
  - destruct (Z_lt_le_dec z 0) as [Hz|Hz]; [eexists; eapply said_negative; eauto|].
    apply U. eexists. constructor. apply needed_min. auto.
  - apply U. eexists. constructor. constructor.
  - apply U. eexists. constructor. constructor.
Qed.
Lemma size_said_det p a b incl v m m' : size_said p a b incl v m -> size_said p a b incl v m' -> m = m'.
Proof.
  intros H H'. destruct H, H'; subst; auto;
    try (exfalso; match goal with E : forall k, ~ between _ _ _ k, B : between _ _ _ _ |- _ => eapply E; exact B end);
    try (exfalso; match goal with S : size_is _ _ _, N : no_size _ _ |- _ => eapply size_is_sized; eassumption end);
    try (exfalso; match goal with N : no_size PUint (VInteger _) |- _ => eapply N; reflexivity end);
    try (exfalso; match goal with S : size_is PUint (VInteger _) _ |- _ => inversion S; subst end;
         match goal with M : min_bytes _ _ |- _ => destruct M as (_ & [? _] & _) end; lia);
    match goal with S : size_is _ _ _, S' : size_is _ _ _ |- _ => pose proof (size_is_fun _ _ _ _ S S') end; lia.
Qed.
Lemma size_worded p a b incl v m : u64 a -> u64 b -> In p size_classes -> size_said p a b incl v m ->
  worded (size_target X (NLiteral (LInt a), NLiteral (LInt b), incl) v (NPrelude p)) m.
Proof.
  intros Ha Hb Hp S m' Q. eapply size_said_det; [|exact S].
  assert (Bt : (b <? a)%Z || ((a =? b)%Z && negb incl) = false -> between a b incl a).
  { intros E. apply orb_false_iff in E. destruct E as [E1 E2]. apply Z.ltb_ge in E1. unfold between. destruct incl; [lia|].
    cbn in E2. rewrite andb_true_r in E2. apply Z.eqb_neq in E2. lia. }
  assert (Em : (b <? a)%Z || ((a =? b)%Z && negb incl) = true -> forall k, ~ between a b incl k).
  { intros E k. unfold between. apply orb_true_iff in E. destruct E as [E|E].
    - apply Z.ltb_lt in E. destruct incl; lia.
    - apply andb_true_iff in E. destruct E as [E1 E2]. apply Z.eqb_eq in E1. destruct incl; [discriminate|]. lia. }
  unfold u64 in *.
  destruct Hp as [<-|[<-|[<-|[]]]]; cbn [size_target] in Q;
    unfold validate_size_uint, validate_size_tstr, validate_size_bstr in Q; rewrite size_bounds_val in Q by auto;
    destruct ((b <? a)%Z || ((a =? b)%Z && negb incl)) eqn:E;
    try (inv Q; apply said_empty; auto); specialize (Bt eq_refl).
  - destruct v; try (inv Q; eapply said_kind; [exact Bt|cbn; discriminate]).
    destruct (Z.ltb_spec z 0) as [Hz|Hz]; [inv Q; eapply said_negative; eauto|].
    pose proof (needed_min z Hz) as M. set (needed := if (z =? 0)%Z then 0%N else div_ceil8 (bit_length (Z.to_N z))) in *.
    destruct (N.eqb (Z.to_N a) (Z.to_N b) && incl) eqn:Ex.
    + apply andb_true_iff in Ex. destruct Ex as [Ex ->]. apply N.eqb_eq in Ex. assert (a = b) by lia. subst b.
      destruct (N.leb_spec 16 (Z.to_N a)) as [H16|H16]; [discriminate|].
      unfold shl_i128_one in Q. destruct (N.ltb_spec (Z.to_N a * 8) 127); [|lia]. rewrite Z.shiftl_1_l in Q.
      replace (2 ^ Z.of_N (Z.to_N a * 8))%Z with (256 ^ a)%Z in Q by (rewrite pow256 by lia; f_equal; lia).
      destruct (Z.ltb_spec z (256 ^ a)); [discriminate|]. inv Q.
      apply (said_over PUint a a true (VInteger z) a (Z.of_N needed)); [exact Bt|constructor; exact M|].
      destruct M as (M0 & (_ & M1) & _). destruct (Z_lt_le_dec (Z.of_N needed) a); [|lia].
      assert (256 ^ Z.of_N needed <= 256 ^ a)%Z by (apply Z.pow_le_mono_r; lia). lia.
    + destruct (N.ltb_spec needed (Z.to_N a)).
      * inv Q. eapply (said_under PUint); [exact Bt|constructor; exact M|lia].
      * destruct (if incl then _ else _); inv Q. eapply (said_over PUint); [exact Bt|constructor; exact M|lia].
  - destruct v; try (inv Q; eapply said_kind; [exact Bt|cbn; discriminate]).
    assert (Sz : size_is PTstr (VText t) (Z.of_N (utf8_len t))).
    { constructor. apply in_bytes_length. rewrite utf8_len_encode. constructor. }
    destruct (N.ltb_spec (utf8_len t) (Z.to_N a)).
    + inv Q. eapply (said_under PTstr); [exact Bt|exact Sz|lia].
    + match type of Q with context [if negb ?x then _ else _] => destruct x end; inv Q. eapply (said_over PTstr); [exact Bt|exact Sz|lia].
  - destruct v; try (inv Q; eapply said_kind; [exact Bt|cbn; discriminate]).
    assert (Sz : size_is PBstr (VBytes b0) (Z.of_N (N.of_nat (List.length b0)))).
    { rewrite nat_N_Z. constructor. constructor. }
    destruct (N.ltb_spec (N.of_nat (List.length b0)) (Z.to_N a)).
    + inv Q. eapply (said_under PBstr); [exact Bt|exact Sz|lia].
    + match type of Q with context [if negb ?x then _ else _] => destruct x end; inv Q. eapply (said_over PBstr); [exact Bt|exact Sz|lia].
Qed.
Lemma size_target_decides p a b incl v : u64 a -> u64 b -> In p size_classes ->
  decides (sized p a b incl v) (size_target X (NLiteral (LInt a), NLiteral (LInt b), incl) v (NPrelude p)).
Proof.
  intros Ha Hb Hp. pose proof (size_exact p a b incl v Ha Hb) as E.
  destruct (size_target X (NLiteral (LInt a), NLiteral (LInt b), incl) v (NPrelude p)) as [[]|e|] eqn:Q.
  - constructor. apply E. auto.
  - assert (exists m, e = EMismatch m) as (m & ->); [|constructor; intros H; apply E in H; discriminate].
    clear E. unfold size_target in Q. destruct Hp as [<-|[<-|[<-|[]]]];
      unfold validate_size_uint, validate_size_tstr, validate_size_bstr in Q; rewrite size_bounds_val in Q by auto;
      repeat match type of Q with
      | context [if ?x then _ else _] => destruct x
      | context [match ?x with Some _ => _ | None => _ end] => destruct x
      | context [match v with _ => _ end] => destruct v
      end; inv Q; unfold mismatch; eauto.
  - exfalso. clear E. unfold size_target in Q. destruct Hp as [<-|[<-|[<-|[]]]];
      unfold validate_size_uint, validate_size_tstr, validate_size_bstr in Q; rewrite size_bounds_val in Q by auto; unfold shl_i128_one in Q;
      repeat match type of Q with
      | context [if ?x then _ else _] => destruct x eqn:?
      | context [match ?x with Some _ => _ | None => _ end] => destruct x
      | context [match v with _ => _ end] => destruct v
      end; inv Q.
    match goal with H : N.leb 16 _ = false, H' : N.ltb _ 127 = false |- _ => apply N.leb_gt in H; apply N.ltb_ge in H' end. lia.
Qed.
Lemma size_val c t l nd a b incl v : stands lk c l nd -> size_arg nd a b incl ->
  val X lk v (NControl (CtlSize t l)) c = chase X lk (size_target X (NLiteral (LInt a), NLiteral (LInt b), incl) v) t c.
Proof.
  intros (cl & Hl) A. apply size_arg_inv in A. destruct A as (_ & _ & E).
  rewrite val_eq. cbn [control_val]. rewrite (chase_named _ _ _ _ _ _ _ Hl), E. reflexivity.
Qed.

Theorem judges_sound c t v j : judges X lk c t v j -> matches j (val X lk v t c).
Proof.
  intros J. destruct J.
  - eapply settles_decides; eauto; [apply literal_decides|apply literal_worded].
  - eapply settles_decides; eauto; [apply prelude_decides|apply prelude_worded].
  - eapply settles_decides; eauto; [eapply range_decides|eapply range_worded]; eauto.
  - cbn. rewrite val_eq, (dangles_deref _ _ _ H). reflexivity.
  - cbn. destruct H as (cs & H). rewrite val_eq, (deref_named _ _ _ _ _ _ H).
    destruct nd; try reflexivity. exfalso. eapply H0; reflexivity.
  - cbn. destruct H as (cs & H). rewrite val_eq, (deref_named _ _ _ _ _ _ H), (dangles_deref _ _ _ H0). reflexivity.
  - cbn. destruct H as (cs & H), H0 as (ct & H0). rewrite val_eq, (deref_named _ _ _ _ _ _ H), (deref_named _ _ _ _ _ _ H0).
    destruct nd; try reflexivity. exfalso. eapply H1; reflexivity.
  - cbn. destruct H as (cs & H), H0 as (ct & H0). rewrite val_eq, (deref_named _ _ _ _ _ _ H), (deref_named _ _ _ _ _ _ H0). cbn.
    unfold range_compare. destruct l, l'; try reflexivity; exfalso; apply H1; constructor.
  - pose proof H as H'. pose proof H0 as H0'. destruct H as (cl & H), H0 as (ct & H0).
    eapply settles_decides; [eassumption|eapply cmp_decides; eauto; cbn in H1; intuition|eapply cmp_worded; eauto].
  - cbn. destruct H as (cl & H). rewrite cmp_control_val, (chase_named _ _ _ _ _ _ _ H), <- show_node_text.
    destruct nd as [[]| | | | | | | | | | | | |]; try (destruct op; reflexivity). exfalso. eapply H0; reflexivity.
  - cbn. destruct H as (cl & H). rewrite cmp_control_val, (chase_named _ _ _ _ _ _ _ H).
    replace (limit_fun X op (NLiteral (LInt n))) with (@Ok Z n) by (destruct op; reflexivity). cbn. apply dangles_chase; auto.
  - cbn. destruct H as (cl & H), H0 as (ct & H0). rewrite cmp_control_val, (chase_named _ _ _ _ _ _ _ H).
    replace (limit_fun X op (NLiteral (LInt n))) with (@Ok Z n) by (destruct op; reflexivity). cbn [bind_res].
    rewrite (chase_named _ _ _ _ _ _ _ H0). unfold cmp_target_fault. rewrite <- show_node_text.
    destruct nd as [|p| | | | | | | | | | | |]; try (destruct op; reflexivity).
    destruct p; try (destruct op; reflexivity); exfalso; eapply H1; try reflexivity; cbn; auto.
  - rewrite (size_val _ _ _ _ _ _ _ _ H H0). destruct H1 as (ct & H1). rewrite (chase_named _ _ _ _ _ _ _ H1).
    apply size_arg_inv in H0. destruct H0 as (? & ? & _).
    eapply settles_decides; [eassumption|apply size_target_decides; tauto|eapply size_worded; eauto].
  - cbn. destruct H as (cl & H). rewrite val_eq. cbn [control_val].
    rewrite (chase_named _ _ _ _ _ _ _ H), (size_arg_fault_text _ _ H0). reflexivity.
  - rewrite (size_val _ _ _ _ _ _ _ _ H H0). apply dangles_chase; auto.
  - cbn. rewrite (size_val _ _ _ _ _ _ _ _ H H0). destruct H1 as (ct & H1). rewrite (chase_named _ _ _ _ _ _ _ H1), <- show_node_text.
    destruct nd'; try reflexivity. destruct p; try reflexivity; exfalso; eapply H2; try reflexivity; cbn; auto.
  - cbn. rewrite val_eq. destruct H; cbn [control_val]; rewrite (dangles_chase _ _ _ _ H0); reflexivity.
  - eapply settles_decides; eauto; [apply regexp_decides|apply regexp_worded].
Qed.

Lemma cmp_judged c op t l v : exists j, judges X lk c (NControl (cmp_control op t l)) v j.
Proof.
  destruct (leads c l) as [(e & Dl)|(nl & Sl)]; [eexists; eapply j_argument_dangles with (t := t) (l := l); eauto; destruct op; constructor|].
  assert ((exists n, nl = NLiteral (LInt n)) \/ forall n, nl <> NLiteral (LInt n)) as [(n & ->)|N].
  { destruct nl as [[]| | | | | | | | | | | | |]; eauto; right; congruence. }
  2: { eexists. eapply j_limit_improper; eauto. }
  destruct (leads c t) as [(e & Dt)|(nt & St)]; [eexists; eapply j_compared_dangles; eauto|].
  assert ((exists p, nt = NPrelude p /\ In p cmp_classes) \/ forall p, In p cmp_classes -> nt <> NPrelude p) as [(p & -> & Hp)|N].
  { destruct nt as [|p| | | | | | | | | | | |]; try (right; congruence).
    destruct p; try (left; eexists; split; [reflexivity|cbn; auto]; fail); right; intros p [<-|[<-|[<-|[]]]]; discriminate. }
  2: { eexists. eapply j_compared_improper; eauto. }
  destruct (limit_said_total op p v) as (m & Hm). destruct Sl as (cl & Sl), St as (ct & St).
  destruct (decides_settles _ _ m (cmp_decides X lk op _ _ _ _ v _ _ _ Sl St ltac:(cbn in Hp; intuition))) as (j & Hj).
  exists j. eapply j_compare; eauto; eexists; eauto.
Qed.
Theorem judges_total c t v : leaf t = true -> exists j, judges X lk c t v j.
Proof.
  intros Lf. destruct t; try discriminate.
  - destruct (decides_settles _ _ (literal_text X l) (literal_decides X lk l v c)) as (j & Hj). exists j. constructor. auto.
  - destruct (decides_settles _ _ (type_name p) (prelude_decides X lk p v c)) as (j & Hj). exists j. constructor. auto.
  - destruct (leads c t1) as [(e & D1)|(n1 & S1)]; [eexists; eapply j_start_dangles; eauto|].
    assert (Lit : forall n, (exists l, n = NLiteral l) \/ forall l, n <> NLiteral l) by (intros [] ; eauto; right; congruence).
    destruct (Lit n1) as [(l1 & ->)|N1]; [|eexists; eapply j_start_improper; eauto].
    destruct (leads c t2) as [(e & D2)|(n2 & S2)]; [eexists; eapply j_end_dangles; eauto|].
    destruct (Lit n2) as [(l2 & ->)|N2]; [|eexists; eapply j_end_improper; eauto].
    assert (same_kind l1 l2 \/ ~ same_kind l1 l2) as [K|K] by (destruct l1, l2; try (left; constructor); right; intros K; inversion K).
    2: { eexists. eapply j_kinds; eauto. }
    destruct (decides_settles _ _ (range_text X t1 t2 inclusive) (range_decides c t1 t2 inclusive l1 l2 v S1 S2 K)) as (j & Hj). exists j. eapply j_range; eauto.
  - destruct c0 as [t l|t l|t l|t l|t l|re|]; try discriminate.
    + destruct (leads c l) as [(e & Dl)|(nl & Sl)]; [eexists; eapply j_argument_dangles; eauto; constructor|].
      destruct (size_arg_dec nl) as [(a & b & i & A)|(m & F)]; [|eexists; eapply j_size_improper; eauto].
      destruct (leads c t) as [(e & Dt)|(nt & St)]; [eexists; eapply j_sized_dangles; eauto|].
      assert ((exists p, nt = NPrelude p /\ In p size_classes) \/ forall p, In p size_classes -> nt <> NPrelude p) as [(p & -> & Hp)|N].
      { destruct nt as [|p| | | | | | | | | | | |]; try (right; congruence).
        destruct p; try (left; eexists; split; [reflexivity|cbn; auto]; fail); right; intros p [<-|[<-|[<-|[]]]]; discriminate. }
      2: { eexists. eapply j_sized_improper; eauto. }
      pose proof (size_arg_inv _ _ _ _ A) as (Ha & Hb & _).
      destruct (size_said_total p a b i v Hp) as (m & Hm).
      destruct (decides_settles _ _ m (size_target_decides p a b i v Ha Hb Hp)) as (j & Hj). exists j. eapply j_size; eauto.
    + apply (cmp_judged c OpLt).
    + apply (cmp_judged c OpLe).
    + apply (cmp_judged c OpGt).
    + apply (cmp_judged c OpGe).
    + destruct (decides_settles _ _ (match v with VText _ => txt "regex mismatch" | _ => txt "tstr" end) (regexp_decides X lk re v c)) as (j & Hj). exists j. constructor. auto.
Qed.
Theorem judges_good c t v : leaf t = true -> (judges X lk c t v Good <-> val X lk v t c = Ok tt).
Proof.
  intros Lf. split; [exact (judges_sound c t v Good)|]. intros E. destruct (judges_total c t v Lf) as (j & J).
  pose proof (judges_sound _ _ _ _ J) as M. rewrite E in M. destruct j; auto; discriminate.
Qed.

(** * One judgement *)
Lemma stands_det c nd n1 n2 : stands lk c nd n1 -> stands lk c nd n2 -> n1 = n2.
Proof.
  intros (c1 & H1) (c2 & H2). revert n2 c2 H2. induction H1 as [c nd N|c name args m1 k1 m2 k2 Lk N IH]; intros n2 c2 H2; inv H2; auto.
  - exfalso. eapply N; reflexivity.
  - exfalso. match goal with H : forall _ _, _ <> _ |- _ => eapply H; reflexivity end.
  - match goal with H : L c name args = _ |- _ => rewrite Lk in H; inv H end. eauto.
Qed.
Lemma dangles_det c nd e1 e2 : dangles lk c nd e1 -> dangles lk c nd e2 -> e1 = e2.
Proof. intros H1 H2. apply (dangles_chase (fun _ => Ok tt)) in H1, H2. congruence. Qed.
Lemma stands_dangles c nd n e : stands lk c nd n -> dangles lk c nd e -> False.
Proof. intros (c' & H1) H2. apply (dangles_chase (fun _ => Ok tt)) in H2. rewrite (chase_named _ _ _ _ _ _ _ H1) in H2. discriminate. Qed.
Lemma settles_det P m j1 j2 : settles P m j1 -> settles P m j2 -> j1 = j2.
Proof. intros [H|H] [H'|H']; auto; contradiction. Qed.
Lemma size_arg_det nd a b i a' b' i' : size_arg nd a b i -> size_arg nd a' b' i' -> a = a' /\ b = b' /\ i = i'.
Proof. intros H H'. inv H; inv H'; auto. Qed.
Lemma cmp_control_inj op t l op' t' l' : cmp_control op t l = cmp_control op' t' l' -> op = op' /\ t = t' /\ l = l'.
Proof. destruct op, op'; cbn; intros [= <- <-]; auto. Qed.
Lemma cmp_parts op t l t' l' : control_parts (cmp_control op t l) t' l' -> t = t' /\ l = l'.
Proof. destruct op; intros H; inv H; auto. Qed.

Lemma parts_det ctl t l t' l' : control_parts ctl t l -> control_parts ctl t' l' -> t = t' /\ l = l'.
Proof. intros H H'. inv H; inv H'; auto. Qed.

Ltac uniq := repeat (subst; match goal with
  | H : cmp_control _ _ _ = cmp_control _ _ _ |- _ => apply cmp_control_inj in H; destruct H as (? & ? & ?)
  | H : cmp_control ?op _ _ = CtlSize _ _ |- _ => destruct op; discriminate H
  | H : CtlSize _ _ = cmp_control ?op _ _ |- _ => destruct op; discriminate H
  | H : cmp_control ?op _ _ = CtlRegexp _ |- _ => destruct op; discriminate H
  | H : CtlRegexp _ = cmp_control ?op _ _ |- _ => destruct op; discriminate H
  | H : control_parts (cmp_control _ _ _) _ _ |- _ => apply cmp_parts in H; destruct H
  | H : control_parts (CtlSize _ _) _ _ |- _ => inv H
  | H : control_parts ?ctl _ _, H' : control_parts ?ctl _ _ |- _ =>
      let E := fresh in pose proof (parts_det _ _ _ _ _ H H') as E; clear H'; destruct E as (? & ?)
  | H : control_parts (CtlRegexp _) _ _ |- _ => inv H
  | H : NControl _ = NControl _ |- _ => injection H as H
  | H : NLiteral _ = NLiteral _ |- _ => injection H as H
  | H : NPrelude _ = NPrelude _ |- _ => injection H as H
  | H : LInt _ = LInt _ |- _ => injection H as H
  | S : stands lk ?c ?n _, D : dangles lk ?c ?n _ |- _ => destruct (stands_dangles _ _ _ _ S D)
  | S : stands lk ?c ?n ?a, S' : stands lk ?c ?n ?b |- _ =>
      let E := fresh in pose proof (stands_det _ _ _ _ S S') as E; clear S'
  | D : dangles lk ?c ?n _, D' : dangles lk ?c ?n _ |- _ => let E := fresh in pose proof (dangles_det _ _ _ _ D D') as E; clear D'
  | F : size_arg_fault _ ?n _, A : size_arg ?n _ _ _ |- _ => destruct (size_arg_fault_no _ _ _ _ _ F A)
  | F : size_arg_fault _ ?n _, F' : size_arg_fault _ ?n _ |- _ => let E := fresh in pose proof (size_arg_fault_det _ _ _ F F') as E; clear F'
  | A : limit_said _ _ _ _, A' : limit_said _ _ _ _ |- _ => let E := fresh in pose proof (limit_said_det _ _ _ _ _ A A') as E; clear A'
  | A : size_said ?p ?a ?b ?i ?v _, A' : size_said ?p ?a ?b ?i ?v _ |- _ =>
      let E := fresh in pose proof (size_said_det _ _ _ _ _ _ _ A A') as E; clear A'
  | A : size_arg ?n _ _ _, A' : size_arg ?n _ _ _ |- _ =>
      let E := fresh in pose proof (size_arg_det _ _ _ _ _ _ _ A A') as E; clear A'; destruct E as (? & ? & ?)
  end); subst.
Theorem judges_det c t v j1 : judges X lk c t v j1 -> forall j2, judges X lk c t v j2 -> j1 = j2.
Proof.
  intros J1 j2 J2. inversion J1; subst; inversion J2; uniq;
    try (eapply settles_det; eassumption); try reflexivity; try discriminate;
    exfalso;
    match goal with
    | H : forall l, NLiteral ?x <> NLiteral l |- _ => eapply H; reflexivity
    | H : forall n, NLiteral (LInt ?x) <> NLiteral (LInt n) |- _ => eapply H; reflexivity
    | H : forall p, In p _ -> NPrelude ?q <> NPrelude p |- _ => eapply H; [eassumption|reflexivity]
    | H : forall a b i, ~ size_arg _ a b i |- _ => eapply H; eassumption
    | H : ~ same_kind _ _ |- _ => apply H; assumption
    end.
Qed.
Lemma judges_leaf c t v j : judges X lk c t v j -> leaf t = true.
Proof. intros J. destruct J; auto; try (destruct op; auto; fail). destruct H; auto. Qed.
Lemma judges_ok c t v : judges X lk c t v Good -> val X lk v t c = Ok tt.
Proof. exact (judges_sound c t v Good). Qed.

Hypothesis Hlk : forall name e, lk name = inr e -> is_fatal e = true.
Lemma dangles_fatal c nd e : dangles lk c nd e -> is_fatal e = true.
Proof.
  intros (name & args & c' & _ & E).
  destruct (lookup_rule_good (fun e => is_fatal e = true) lk ltac:(reflexivity) ltac:(reflexivity) Hlk c' name args) as [_ G]. auto.
Qed.
Lemma faulty_fatal c t v e : judges X lk c t v (Faulty e) -> is_fatal e = true.
Proof.
  intros J. inversion J; subst; try reflexivity; try (match goal with S : settles _ _ _ |- _ => inversion S end);
    match goal with D : dangles _ _ _ _ |- _ => apply dangles_fatal in D; auto end.
Qed.
End Judge.
