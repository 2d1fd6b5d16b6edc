(** Every reported mismatch is traced to a task that is not met. *)
From Coq Require Import List Bool ZArith NArith String Lia Sorting.Sorted.
From Verif Require Import Base Util Data Value ValueOrder Convert Ivt Scalar Validate Fun FloatProofs ScalarProofs
  SpecBase SpecScalar SpecReach SpecPeg SpecBlame ConvertProofs SpecJudge JudgeProofs SpecDefect DefectProofs.
Import ListNotations.
Open Scope list_scope.

(** * Loops *)
Section Loops.
Context {St : Type}.
Variable f : node -> St -> option (res unit * St).
Variable g : node -> St -> res unit * St.
Hypothesis FG : forall m s r, f m s = Some r -> g m s = r.

Lemma seq_split : forall ms s e s', seq_loop f ms s = Some (Err e, s') ->
  exists pre m post s1, ms = pre ++ m :: post /\ runs g pre s s1 /\ f m s1 = Some (Err e, s').
Proof.
  induction ms as [|m ms IH]; cbn; intros s e s' H; [discriminate|].
  destruct (f m s) as [[[[]|e1|] s1]|] eqn:F; try discriminate.
  - destruct (IH _ _ _ H) as (pre & m' & post & s2 & -> & R & E). exists (m :: pre), m', post, s2.
    split; auto. split; auto. econstructor; eauto.
  - inversion H; subst. exists [], m, ms, s. split; auto. split; [constructor|auto].
Qed.
Lemma seq_all : forall ms s s', seq_loop f ms s = Some (Ok tt, s') -> runs g ms s s'.
Proof.
  induction ms as [|m ms IH]; cbn; intros s s' H; [inversion H; constructor|].
  destruct (f m s) as [[[[]|e1|] s1]|] eqn:F; try discriminate. econstructor; eauto.
Qed.
Lemma try_split stop fin : forall os s e s',
  (forall o s e1 s1, In o os -> f o s = Some (Err e1, s1) -> stop e1 = false -> exists m, e1 = EMismatch m) ->
  try_loop stop f os fin s = Some (Err e, s') ->
  (e = fin /\ skips g os s s') \/
  exists pre o post s1, os = pre ++ o :: post /\ skips g pre s s1 /\ f o s1 = Some (Err e, s') /\ stop e = true.
Proof.
  induction os as [|o os IH]; cbn; intros s e s' M H; [inversion H; left; split; auto; constructor|].
  destruct (f o s) as [[[[]|e1|] s1]|] eqn:F; try discriminate. destruct (stop e1) eqn:S.
  - inversion H; subst. right. exists [], o, os, s. repeat split; auto. constructor.
  - destruct (M _ _ _ _ (or_introl eq_refl) F S) as (m & ->).
    destruct (IH _ _ _ ltac:(eauto) H) as [[-> K]|(pre & o' & post & s2 & -> & R & E & S')].
    + left. split; auto. econstructor; eauto.
    + right. exists (o :: pre), o', post, s2. repeat split; auto. econstructor; eauto.
Qed.
End Loops.

Lemma try_pure_split (f : node -> option (res unit)) (g : node -> res unit) stop fin :
  (forall o r, f o = Some r -> g o = r) -> forall os e,
  (forall o e1, In o os -> f o = Some (Err e1) -> stop e1 = false -> exists m, e1 = EMismatch m) ->
  try_loop_pure stop f os fin = Some (Err e) -> stop e = false -> e = fin /\ forall o, In o os -> rejected (g o).
Proof.
  intros FG. induction os as [|o os IH]; cbn; intros e M H S; [inversion H; split; auto; contradiction|].
  destruct (f o) as [[[]|e1|]|] eqn:F; try discriminate. destruct (stop e1) eqn:S1; [congruence|].
  destruct (M _ _ (or_introl eq_refl) F S1) as (m & ->).
  destruct (IH _ ltac:(eauto) H S) as [-> K]. split; auto. intros o' [<-|Ho]; auto.
  exists m. auto.
Qed.

Lemma occur_split {St} (f : St -> option (res unit * St)) (g : St -> res unit * St) up :
  (forall s r, f s = Some r -> g s = r) -> forall n k s0 s r s', repeats g k s0 s -> (k = 0 \/ k < up)%N ->
  occur_loop n f up k s = Some (r, s') ->
  match r with
  | Ok k' => (exists s1 m, repeats g k' s0 s1 /\ (k' = 0 \/ k' < up)%N /\ g s1 = (Err (EMismatch m), s')) \/
             repeats g k' s0 s' /\ k' = N.max 1 up
  | Err e => exists k1 s1, repeats g k1 s0 s1 /\ (k1 = 0 \/ k1 < up)%N /\ f s1 = Some (Err e, s') /\ is_mismatch e = false
  | Panic => True
  end.
Proof.
  intros FG. induction n as [|n IH]; cbn; intros k s0 s r s' R K H; [discriminate|].
  destruct (f s) as [[[[]|e1|] s1]|] eqn:F; try discriminate.
  - assert (R' : repeats g (k + 1) s0 s1) by (econstructor; eauto).
    destruct (N.leb_spec up (k + 1)).
    + inversion H; subst. right. split; auto. lia.
    + eapply IH; eauto.
  - destruct (is_mismatch e1) eqn:M; inversion H; subst.
    + left. destruct e1; try discriminate. exists s, expected. auto.
    + exists k, s. auto.
  - inversion H; subst. auto.
Qed.

Section Blame.
Variable X : ext.
Variable lk : lookup_context.
Hypothesis Hlk : forall name e, lk name = inr e -> is_fatal e = true.
Notation L := (lookup_rule lk).
Notation blamed := (blamed X lk).
Notation complains := (complains X lk).

Lemma lookup_err c name args e : L c name args = Err e -> is_fatal e = true.
Proof.
  unfold lookup_rule. destruct (gm_get _ _).
  - destruct (ctx_past c); [intros [=]|]. unfold blank, inc_depth. destruct (N.leb _ _); intros H; inversion H; auto.
  - destruct (lk name) as [d|e'] eqn:E; [|intros H; inversion H; subst; eauto].
    unfold derive, inc_depth. destruct (negb _); [intros H; inversion H; auto|]. destruct (N.leb _ _); intros H; inversion H; auto.
Qed.

(** * Leaves *)
Lemma stands_named c nd nd' : stands lk c nd nd' -> exists c', named lk c nd nd' c'.
Proof. auto. Qed.
Lemma dangles_fatal c nd e : dangles lk c nd e -> is_fatal e = true.
Proof. intros (? & ? & ? & _ & H). eapply lookup_err; eauto. Qed.

Definition complaint (t : task) (e : verror) : Prop := exists m, e = EMismatch m /\ complains t m.

Lemma deref_nonfatal n nd c e : deref_range_rule L n nd c = Some (Err e) -> is_fatal e = true.
Proof. intros H. destruct (deref_err lk _ _ _ _ H) as [D|(nd' & m & _ & _ & ->)]; auto. eapply dangles_fatal; eauto. Qed.

Lemma range_complaint n v s e i c err :
  validate_range X L n s e i v c = Some (Err err) -> is_fatal err = false -> complaint (TV v (NRange s e i) c) err.
Proof.
  unfold validate_range, obind. intros H F.
  destruct (deref_range_rule L n s c) as [[l|e1|]|] eqn:E1; try discriminate;
    [|inversion H; subst; rewrite (deref_nonfatal _ _ _ _ E1) in F; discriminate].
  destruct (deref_range_rule L n e c) as [[l'|e1|]|] eqn:E2; try discriminate;
    [|inversion H; subst; rewrite (deref_nonfatal _ _ _ _ E2) in F; discriminate].
  destruct (deref_ok lk _ _ _ _ E1) as (cs & S1). destruct (deref_ok lk _ _ _ _ E2) as (ce & S2).
  pose proof (range_named X lk _ _ i _ _ v _ _ _ S1 S2) as V. injection H as H.
  assert (R : range_compare (range_text X s e i) l l' i v = Err err) by (rewrite <- show_range_text; auto).
  exists (range_text X s e i). split.
  { unfold range_compare in R. destruct l, l', v; cbn in R;
      repeat match type of R with (if ?b then _ else _) = _ => destruct b end; inversion R; subst; auto; discriminate. }
  eapply say_range; eauto. rewrite H in V.
  destruct l as [l0|a|a|l0|l0], l' as [l1|b|b|l1|l1]; cbn;
    try (cbn in R; destruct v; inversion R; subst; discriminate); try constructor.
  - intros J. pose proof (int_range_decides X lk s e i a b v c cs ce S1 S2) as D. rewrite V in D. inversion D; auto.
  - intros J. pose proof (float_range_decides X lk s e i a b v c cs ce S1 S2) as D. rewrite V in D. inversion D; auto.
Qed.

Lemma cmp_complaint op t s v c n e
  (G : Z -> value -> node -> res unit) (o : text) :
  (forall z p x, In p [PUint; PNint; PInt] -> ~ in_prelude p x -> G z x (NPrelude p) = Err (EMismatch (type_name p))) ->
  (forall z p x, In p [PUint; PNint; PInt] -> in_prelude p (VInteger x) -> 
     (cmp_holds op x z /\ G z (VInteger x) (NPrelude p) = Ok tt) \/
     (~ cmp_holds op x z /\ G z (VInteger x) (NPrelude p) = Err (EMismatch (limit_text op p)))) ->
  (forall z x nd, (forall p, In p [PUint; PNint; PInt] -> nd <> NPrelude p) -> exists m, G z x nd = Err (EStructural m)) ->
  obind (chase_rules L n (cmp_limit X o) s c) (fun z => chase_rules L n (G z v) t c) = Some (Err e) -> is_fatal e = false ->
  complaint (TV v (NControl (cmp_control op t s)) c) e.
Proof.
  intros G1 G2 G3 H F. unfold obind in H.
  destruct (chase_rules L n (cmp_limit X o) s c) as [r|] eqn:C; [|discriminate].
  destruct (chase_res lk _ _ _ _ _ C) as [(e' & -> & Da)|(l' & (cs & S) & ->)]; [destruct r; discriminate| |].
  { inversion H; subst. rewrite (dangles_fatal _ _ _ Da) in F. discriminate. }
  destruct (cmp_limit X o l') as [z|e'|] eqn:E; [|inversion H; subst|discriminate].
  2: { destruct (limit_bad X _ _ _ E) as [_ (m & ->)]. discriminate. }
  assert (Hl : l' = NLiteral (LInt z)).
  { unfold cmp_limit in E. destruct l' as [[]| | | | | | | | | | | | |]; try discriminate. congruence. }
  subst l'.
  destruct (chase_res lk _ _ _ _ _ H ltac:(discriminate)) as [(e' & [= <-] & Da)|(t' & (ct & S') & Q)].
  { rewrite (dangles_fatal _ _ _ Da) in F. discriminate. }
  symmetry in Q.
  assert (P : (exists p, In p [PUint; PNint; PInt] /\ t' = NPrelude p) \/ forall p, In p [PUint; PNint; PInt] -> t' <> NPrelude p).
  { destruct t' as [|p| | | | | | | | | | | |]; try (right; intros; discriminate).
    destruct p; try (left; eexists; split; [|reflexivity]; cbn; tauto); right; intros p [<-|[<-|[<-|[]]]]; discriminate. }
  destruct P as [(p & Hp & ->)|P].
  2: { destruct (G3 z v t' P) as (m & E3). rewrite E3 in Q. inversion Q; subst. discriminate. }
  assert (I : in_prelude p v \/ ~ in_prelude p v).
  { cbn in Hp. destruct Hp as [<-|[<-|[<-|[]]]]; destruct v; try (right; intros Z; inversion Z; fail); try (left; constructor; fail);
      destruct (Z_lt_le_dec z0 0); try (left; constructor; lia); right; intros Z; inversion Z; lia. }
  destruct I as [I|I].
  - assert (Hv : exists x, v = VInteger x) by (destruct I; cbn in Hp; try (destruct Hp as [Hp|[Hp|[Hp|[]]]]; discriminate); eauto).
    destruct Hv as (x & ->). destruct (G2 z p x Hp I) as [[_ E2]|[N E2]]; rewrite E2 in Q; inversion Q; subst.
    eexists. split; [reflexivity|]. eapply say_limit; eauto.
  - rewrite (G1 z p v Hp I) in Q. inversion Q; subst. eexists. split; [reflexivity|]. eapply say_limit_kind; eauto.
Qed.

Ltac kinds := intros z p x [<-|[<-|[<-|[]]]] N; destruct x; try reflexivity; cbn;
  try match goal with |- context [Z.ltb ?a ?b] => destruct (Z.ltb_spec a b) end;
  try match goal with |- context [Z.leb ?a ?b] => destruct (Z.leb_spec a b) end;
  try reflexivity; exfalso; apply N; clear N; first [apply in_uint; assumption|apply in_nint; assumption|apply in_int].
Ltac limits_ := intros z p x [<-|[<-|[<-|[]]]] I; inversion I; subst; cbn [cmp_holds];
  unfold lt_target, le_target, gt_target, ge_target, validate_lt_uint, validate_lt_nint, validate_lt_int,
    validate_le_uint, validate_le_nint, validate_le_int, validate_gt_uint, validate_gt_nint, validate_gt_int,
    validate_ge_uint, validate_ge_nint, validate_ge_int;
  repeat match goal with
  | |- context [Z.ltb ?a ?b] => destruct (Z.ltb_spec a b)
  | |- context [Z.leb ?a ?b] => destruct (Z.leb_spec a b)
  end; try lia; first [left; split; [lia|reflexivity]|right; split; [lia|reflexivity]].
Ltac others := intros z x nd Nn; destruct nd as [|p| | | | | | | | | | | |]; try (eexists; reflexivity);
  destruct p; try (eexists; reflexivity); exfalso; refine (Nn _ _ eq_refl); cbn; tauto.

Lemma lt_control t s v c n e : validate_control_lt X L n t s v c = Some (Err e) -> is_fatal e = false ->
  complaint (TV v (NControl (CtlLt t s)) c) e.
Proof. intros H F. eapply (cmp_complaint OpLt _ _ _ _ _ _ (lt_target X)); [kinds|limits_|others|exact H|exact F]. Qed.
Lemma le_control t s v c n e : validate_control_le X L n t s v c = Some (Err e) -> is_fatal e = false ->
  complaint (TV v (NControl (CtlLe t s)) c) e.
Proof. intros H F. eapply (cmp_complaint OpLe _ _ _ _ _ _ (le_target X)); [kinds|limits_|others|exact H|exact F]. Qed.
Lemma gt_control t s v c n e : validate_control_gt X L n t s v c = Some (Err e) -> is_fatal e = false ->
  complaint (TV v (NControl (CtlGt t s)) c) e.
Proof. intros H F. eapply (cmp_complaint OpGt _ _ _ _ _ _ (gt_target X)); [kinds|limits_|others|exact H|exact F]. Qed.
Lemma ge_control t s v c n e : validate_control_ge X L n t s v c = Some (Err e) -> is_fatal e = false ->
  complaint (TV v (NControl (CtlGe t s)) c) e.
Proof. intros H F. eapply (cmp_complaint OpGe _ _ _ _ _ _ (ge_target X)); [kinds|limits_|others|exact H|exact F]. Qed.
Lemma size_limit_ok nd sz : normalize_size_range X nd = Ok sz ->
  exists a b i, sz = (NLiteral (LInt a), NLiteral (LInt b), i) /\ size_limit nd a b i /\ (0 <= a < 2 ^ 64)%Z /\ (0 <= b < 2 ^ 64)%Z.
Proof.
  unfold normalize_size_range. destruct nd as [lit| | | | | | | | | |s t' incl| | |]; try discriminate.
  - destruct lit as [|a| | |]; try discriminate. destruct (to_u64 a) eqn:T; intros [= <-]. apply to_u64_some in T.
    exists a, a, true. repeat split; try apply T. constructor; exact T.
  - destruct s as [lit| | | | | | | | | | | | |]; try discriminate. destruct lit as [|a| | |]; try discriminate.
    destruct t' as [lit| | | | | | | | | | | | |]; try discriminate. destruct lit as [|b| | |]; try discriminate.
    destruct (to_u64 a) eqn:T; [|discriminate]. destruct (to_u64 b) eqn:T'; intros [= <-]. apply to_u64_some in T. apply to_u64_some in T'.
    exists a, b, incl. repeat split; try apply T; try apply T'. constructor; [exact T|exact T'].
Qed.

Lemma size_bounds_cases ty a b i : (0 <= a < 2 ^ 64)%Z -> (0 <= b < 2 ^ 64)%Z ->
  ((forall k, ~ between a b i k) /\ size_bounds ty (NLiteral (LInt a), NLiteral (LInt b), i) = Err (EMismatch (ty ++ txt " over .size limit"))) \/
  ((exists k, between a b i k) /\ size_bounds ty (NLiteral (LInt a), NLiteral (LInt b), i) = Ok (Z.to_N a, Z.to_N b, i)).
Proof.
  intros A B. unfold size_bounds, between. rewrite (to_u64_ok a A), (to_u64_ok b B).
  destruct (N.ltb_spec (Z.to_N b) (Z.to_N a)).
  { left. split; [|reflexivity]. intros k K. destruct i; lia. }
  destruct (N.eqb_spec (Z.to_N a) (Z.to_N b)); destruct i; cbn.
  - right. split; auto. exists a; lia.
  - left. split; auto. intros k K; lia.
  - right. split; auto. exists a; lia.
  - right. split; auto. exists a. lia.
Qed.

Lemma size_fault_uint a b i v e : (0 <= a < 2 ^ 64)%Z -> (0 <= b < 2 ^ 64)%Z ->
  validate_size_uint (NLiteral (LInt a), NLiteral (LInt b), i) v = Err e ->
  exists m, e = EMismatch m /\ size_fault PUint a b i v m.
Proof.
  intros A B. unfold validate_size_uint.
  destruct (size_bounds_cases (txt "uint") a b i A B) as [[K ->]|[K ->]].
  { intros [= <-]. eexists. split; [reflexivity|]. apply size_empty; auto. }
  destruct v; try (intros [= <-]; eexists; split; [reflexivity|]; apply size_kind; cbn; intros; discriminate).
  destruct (Z.ltb_spec z 0); [intros [= <-]; eexists; split; [reflexivity|]; eapply size_negative; eauto|].
  pose proof (needed_min z ltac:(lia)) as M.
  set (k := if (z =? 0)%Z then 0%N else div_ceil8 (bit_length (Z.to_N z))) in *.
  destruct (N.eqb_spec (Z.to_N a) (Z.to_N b)) as [Eab|Eab]; cbn [andb]; [destruct i|].
  - destruct (N.leb 16 (Z.to_N b)) eqn:L16; [discriminate|]. apply N.leb_gt in L16.
    unfold shl_i128_one. destruct (N.ltb_spec (Z.to_N b * 8) 127); [|lia].
    match goal with |- (if ?x then _ else _) = _ -> _ => destruct x eqn:Q end; [discriminate|].
    intros [= <-]. eexists. split; [reflexivity|]. eapply (size_over PUint); [constructor; exact M|].
    apply Z.ltb_ge in Q. destruct M as (M0 & M1 & M2).
    rewrite Z.shiftl_mul_pow2, Z.mul_1_l in Q by lia.
    assert (P : (256 ^ b <= z)%Z). { rewrite pow256 by lia. replace (8 * b)%Z with (Z.of_N (Z.to_N b * 8)) by lia. exact Q. }
    destruct (Z.lt_ge_cases b (Z.of_N k)); auto.
    assert (256 ^ Z.of_N k <= 256 ^ b)%Z by (apply Z.pow_le_mono_r; lia). lia.
  - destruct (N.ltb_spec k (Z.to_N a)); [intros [= <-]; eexists; split; [reflexivity|]; eapply (size_under PUint); [constructor; exact M|lia]|].
    destruct (N.ltb_spec k (Z.to_N b)); [discriminate|]. intros [= <-]; eexists; split; [reflexivity|]. eapply (size_over PUint); [constructor; exact M|lia].
  - destruct (N.ltb_spec k (Z.to_N a)); [intros [= <-]; eexists; split; [reflexivity|]; eapply (size_under PUint); [constructor; exact M|lia]|].
    destruct i; [destruct (N.leb_spec k (Z.to_N b))|destruct (N.ltb_spec k (Z.to_N b))]; try discriminate;
      intros [= <-]; eexists; (split; [reflexivity|]); (eapply (size_over PUint); [constructor; exact M|lia]).
Qed.
Lemma size_fault_tstr a b i v e : (0 <= a < 2 ^ 64)%Z -> (0 <= b < 2 ^ 64)%Z ->
  validate_size_tstr (NLiteral (LInt a), NLiteral (LInt b), i) v = Err e ->
  exists m, e = EMismatch m /\ size_fault PTstr a b i v m.
Proof.
  intros A B. unfold validate_size_tstr.
  destruct (size_bounds_cases (txt "tstr") a b i A B) as [[K ->]|[K ->]].
  { intros [= <-]. eexists. split; [reflexivity|]. apply size_empty; auto. }
  destruct v; try (intros [= <-]; eexists; split; [reflexivity|]; apply size_kind; cbn; intros; discriminate).
  pose proof (utf8_len_encode t) as M.
  destruct (N.ltb_spec (utf8_len t) (Z.to_N a)); [intros [= <-]; eexists; split; [reflexivity|]; eapply (size_under PTstr); [constructor; apply in_bytes_length; constructor|lia]|].
  destruct i; [destruct (N.leb_spec (utf8_len t) (Z.to_N b))|destruct (N.ltb_spec (utf8_len t) (Z.to_N b))]; cbn [negb]; try discriminate;
      intros [= <-]; eexists; (split; [reflexivity|]); (eapply (size_over PTstr); [constructor; apply in_bytes_length; constructor|lia]).
Qed.
Lemma size_fault_bstr a b i v e : (0 <= a < 2 ^ 64)%Z -> (0 <= b < 2 ^ 64)%Z ->
  validate_size_bstr (NLiteral (LInt a), NLiteral (LInt b), i) v = Err e ->
  exists m, e = EMismatch m /\ size_fault PBstr a b i v m.
Proof.
  intros A B. unfold validate_size_bstr.
  destruct (size_bounds_cases (txt "bstr") a b i A B) as [[K ->]|[K ->]].
  { intros [= <-]. eexists. split; [reflexivity|]. apply size_empty; auto. }
  destruct v as [| | | |l| | |]; try (intros [= <-]; eexists; split; [reflexivity|]; apply size_kind; cbn; intros; discriminate).
  destruct (N.ltb_spec (N.of_nat (List.length l)) (Z.to_N a)); [intros [= <-]; eexists; split; [reflexivity|]; eapply (size_under PBstr); [constructor; constructor|lia]|].
  destruct i; [destruct (N.leb_spec (N.of_nat (List.length l)) (Z.to_N b))|destruct (N.ltb_spec (N.of_nat (List.length l)) (Z.to_N b))]; cbn [negb]; try discriminate;
      intros [= <-]; eexists; (split; [reflexivity|]); (eapply (size_over PBstr); [constructor; constructor|lia]).
Qed.

Lemma size_complaint t s v c n e : validate_control_size X L n t s v c = Some (Err e) -> is_fatal e = false ->
  complaint (TV v (NControl (CtlSize t s)) c) e.
Proof.
  intros H F. unfold validate_control_size, obind in H.
  destruct (chase_rules L n (normalize_size_range X) s c) as [r|] eqn:C; [|discriminate].
  destruct (chase_res lk _ _ _ _ _ C) as [(e' & -> & Da)|(l' & (cs & S) & ->)]; [destruct r; discriminate| |].
  { inversion H; subst. rewrite (dangles_fatal _ _ _ Da) in F. discriminate. }
  destruct (normalize_size_range X l') as [z|e'|] eqn:E; [|inversion H; subst|discriminate].
  2: { destruct (size_arg_bad X t s _ _ E) as [_ (m & ->)]. discriminate. }
  destruct (size_limit_ok _ _ E) as (a & b & i & -> & SL & A & B).
  destruct (chase_res lk _ _ _ _ _ H ltac:(discriminate)) as [(e' & [= <-] & Da)|(t' & (ct & S') & Q)].
  { rewrite (dangles_fatal _ _ _ Da) in F. discriminate. }
  symmetry in Q. unfold size_target in Q.
  destruct t' as [|p| | | | | | | | | | | |]; try (inversion Q; subst; discriminate).
  assert (Z : In p [PUint; PTstr; PBstr] /\ exists m, e = EMismatch m /\ size_fault p a b i v m).
  { destruct p; try (inversion Q; subst; discriminate); (split; [cbn; tauto|]);
      eauto using size_fault_uint, size_fault_tstr, size_fault_bstr. }
  destruct Z as [Hp (m & -> & Fa)]. exists m. split; auto. eapply say_size; eauto.
Qed.

(** * Blame *)
Definition blame (t : task) (e : verror) : Prop := exists m, e = EMismatch m /\ blamed t m.
Definition note (e : verror) : text := match e with EMismatch m | EMapCut m => m | _ => [] end.

Definition all_blame (n : nat) : Prop :=
  (forall v nd c e, validate X L n v nd c = Some (Err e) -> is_fatal e = false -> blame (TV v nd c) e) /\
  (forall m w c e w', validate_array_member X L n m w c = Some (Err e, w') -> is_fatal e = false -> blame (TA m w c) e) /\
  (forall m w c e w', validate_map_member X L n m w c = Some (Err e, w') -> is_fatal e = false -> blamed (TM m w c) (note e)) /\
  (forall name args v c e, validate_choiceify X L n name args v c = Some (Err e) -> is_fatal e = false -> blame (TC name args v c) e) /\
  (forall name args w c e w', validate_map_choiceify X L n name args w c = Some (Err e, w') -> is_fatal e = false ->
     blamed (TMC name args w c) (note e)).

Lemma blame_complaint v nd c e n : validate X L n v nd c = Some (Err e) -> complaint (TV v nd c) e -> blame (TV v nd c) e.
Proof.
  intros H (m & -> & C). exists m. split; auto. apply blamed_here; auto. left. cbn. eapply val_run; eauto.
Qed.
Lemma nonfatal_stop e : is_fatal e = false -> is_mismatch e = false -> exists m, e = EMapCut m.
Proof. destruct e; cbn; try discriminate; eauto. Qed.

Lemma literal_missing l (es : list (value * value)) : bt_get (value_of_literal l) es = None ->
  StronglySorted (fun p q => vcompare (fst p) (fst q) = Lt) es -> forall k v, In (k, v) es -> ~ lit_is l k.
Proof.
  intros G S k v Hk Hl.
  assert (k = value_of_literal l) as -> by (destruct Hl; auto).
  clear Hl. revert G. induction S as [|[k' v'] es S IH F]; [contradiction|]. cbn.
  destruct Hk as [[= -> ->]|Hk].
  - rewrite (proj2 (vcompare_eq_iff _ _) eq_refl). discriminate.
  - rewrite Forall_forall in F. specialize (F _ Hk). cbn in F. rewrite vcompare_antisym, F. cbn. auto.
Qed.

Lemma search_run (f : value -> option (res unit)) (g : value -> res unit) : (forall k r, f k = Some r -> g k = r) ->
  forall es fin r, map_search_loop f es fin = Some r -> searches g es fin = r /\
    (forall e, r = Err e -> e = fin /\ forall k v, In (k, v) es -> exists e', g k = Err e').
Proof.
  intros FG. induction es as [|[k v] es IH]; cbn; intros fin r H.
  - inversion H; subst. split; auto. intros e [= <-]. split; auto. contradiction.
  - destruct (f k) as [[[]|e1|]|] eqn:F; try discriminate; rewrite (FG _ _ F).
    + inversion H; subst. split; auto. discriminate.
    + destruct (IH _ _ H) as [-> K]. split; auto. intros e E. destruct (K _ E) as [-> Q]. split; auto.
      intros k' v' [[= <- <-]|Hk]; eauto.
    + inversion H; subst. split; auto. discriminate.
Qed.
Lemma key_run n key w c r : (forall v nd c r, validate X L n v nd c = Some r -> val X lk v nd c = r) ->
  validate_map_key X (fun v nd => validate X L n v nd c) key w = Some r -> map_key X lk key w c = r.
Proof.
  intros VR H. unfold validate_map_key, map_search in H. unfold map_key. destruct key;
    try (eapply search_run; [|exact H]; intros; apply VR; auto). inversion H; auto.
Qed.
Lemma key_complaint n key t cut w c e : (forall v nd c r, validate X L n v nd c = Some r -> val X lk v nd c = r) ->
  validate_map_key X (fun v nd => validate X L n v nd c) key w = Some (Err e) -> complaint (TM (NKeyValue key t cut) w c) e.
Proof.
  intros VR H. 
  assert (G : (forall l, key <> NLiteral l) -> map_search X (fun v nd => validate X L n v nd c) key w = Some (Err e) ->
    complaint (TM (NKeyValue key t cut) w c) e).
  { intros N Q. unfold map_search in Q. apply (search_run _ (fun k => val X lk k key c)) in Q; [|intros; apply VR; auto].
    destruct Q as [_ Q]. destruct (Q _ eq_refl) as [-> K]. rewrite show_node_text. eexists. split; [reflexivity|]. apply say_key; auto. }
  unfold validate_map_key in H. destruct key; try (apply G; [discriminate|exact H]). clear G.
  unfold map_search_literal, wm_peek_at in H. destruct (bt_get _ _) eqn:E; inversion H; subst.
  rewrite show_literal_text. eexists. split; [reflexivity|]. apply say_literal_key. apply literal_missing. exact E.
Qed.

Lemma all_blames n : all_blame n.
Proof.
  induction n as [|n (IV & IA & IM & IC & IMC)].
  { repeat split; cbn; intros; discriminate. }
  assert (VR : forall v nd c r, validate X L n v nd c = Some r -> val X lk v nd c = r) by (intros; eapply val_run; eauto).
  assert (AR : forall m w c r, validate_array_member X L n m w c = Some r -> aval X lk m w c = r) by (intros; eapply aval_run; eauto).
  assert (MR : forall m w c r, validate_map_member X L n m w c = Some r -> mval X lk m w c = r) by (intros; eapply mval_run; eauto).
  assert (IVm : forall v nd c e, validate X L n v nd c = Some (Err e) -> is_fatal e = false -> exists m, e = EMismatch m).
  { intros v nd c e H F. destruct (IV _ _ _ _ H F) as (m & -> & _). eauto. }
  assert (ICm : forall name args v c e, validate_choiceify X L n name args v c = Some (Err e) -> is_fatal e = false -> exists m, e = EMismatch m).
  { intros name args v c e H F. destruct (IC _ _ _ _ _ H F) as (m & -> & _). eauto. }
  assert (MC : forall v is c e, 
    validate_choiceify_members (fun m => validate X L n v m c)
      (fun name args => validate_choiceify X L n name args v c) is = Some (Err e) -> is_fatal e = false ->
    e = mismatch (txt "choiceified group of " ++ count_of is) /\ forall i, In i is -> rejected (outcome X lk (item_task v c i))).
  { intros v is c e H F. unfold validate_choiceify_members in H.
    eapply (try_pure_split _ (fun i => outcome X lk (item_task v c i))) in H; [exact H| | |exact F].
    - intros o r E. destruct o; cbn; try (apply VR; exact E). eapply chval_run; exact E.
    - intros o e1 _ E S. destruct o; eauto. }
  assert (MMC : forall w is c e w', 
    validate_map_choiceify_members (fun m w => validate_map_member X L n m w c)
      (fun name args w => validate_map_choiceify X L n name args w c) is w = Some (Err e, w') -> is_fatal e = false ->
    (e = mismatch (txt "choiceified group of " ++ count_of is) /\ skips (map_choiceify_item X lk c) is w w') \/
    exists pre o post w1, is = pre ++ o :: post /\ skips (map_choiceify_item X lk c) pre w w1 /\ blamed (map_item_task w1 c o) (note e)).
  { intros w is c e w' H F. unfold validate_map_choiceify_members in H.
    eapply (try_split _ (map_choiceify_item X lk c)) in H.
    - destruct H as [H|(pre & o & post & w1 & -> & K & E & _)]; [left; exact H|]. right. exists pre, o, post, w1.
      split; auto. split; auto. destruct o; cbn; eauto.
    - intros o s r E. destruct o; cbn; try (apply MR; exact E). eapply mchval_run; exact E.
    - intros o s e1 s1 _ _ S. destruct e1; try discriminate; eauto. }
  assert (AV : forall t w c e w' m, element_of m = Some t -> (forall v a, wa_array w = v :: a -> next X lk false (TA m w c) (TV v t c)) ->
    fst (aval X lk m w c) = Err e ->
    validate_array_value X (fun v nd => validate X L n v nd c) t w = Some (Err e, w') ->
    is_fatal e = false -> blame (TA m w c) e).
  { intros t w c e w' m El Nx O H F. unfold validate_array_value, wa_peek_front in H. destruct (wa_array w) as [|v a] eqn:W.
    - inversion H; subst. rewrite show_node_text in *. eexists. split; [reflexivity|]. apply blamed_here; [left; exact O|]. apply say_element; auto.
    - destruct (validate X L n v t c) as [[[]|e1|]|] eqn:V; try discriminate; [destruct (wa_pop_front w); discriminate|].
      inversion H; subst. destruct (IV _ _ _ _ V F) as (m1 & -> & B). exists m1. split; auto.
      eapply blamed_below; [left; exact O|eauto|exact B]. }
  split; [|split; [|split; [|split]]].
  - (* types *)
    intros v nd c e H F.
    assert (B : complaint (TV v nd c) e -> blame (TV v nd c) e) by (eapply blame_complaint; eauto).
    assert (O : outcome X lk (TV v nd c) = Err e) by (cbn; eapply val_run; eauto).
    assert (St : forall t' e', next X lk false (TV v nd c) t' -> e = e' -> blame t' e' -> blame (TV v nd c) e).
    { intros t' e' Nx -> (m & -> & Bl). exists m. split; auto. eapply blamed_below; [left; exact O|exact Nx|exact Bl]. }
    destruct nd; cbn [validate] in H.
    + apply B. unfold validate_literal in H. destruct (veqb v _) eqn:E; inversion H; subst.
      rewrite show_literal_text. eexists. split; [reflexivity|]. apply say_literal. intros Hl. apply veqb_neq in E. destruct Hl; auto.
    + apply B. pose proof (prelude_decides X lk p v c) as D. cbn in O. rewrite O in D. inversion D; subst.
      exists (type_name p). split; [|apply say_prelude; auto].
      clear - H. destruct p, v; cbn in H; inversion H; auto;
        match type of H with context [if ?b then _ else _] => destruct b end; inversion H; auto.
    + destruct (L c name args) as [[nd' c']|e'|] eqn:E; [|inversion H; subst; rewrite (lookup_err _ _ _ _ E) in F; discriminate|discriminate].
      eapply St; [apply next_rule; exact E|reflexivity|]. eauto.
    + apply B. unfold validate_choice in H. 
      eapply (try_pure_split _ (fun o => val X lk v o c)) in H; [|auto|eauto|exact F].
      destruct H as [-> K]. eexists. split; [reflexivity|]. apply say_choice. exact K.
    + unfold validate_map in H. destruct v; try (apply B; inversion H; subst; eexists; split; [reflexivity|]; apply say_no_map; discriminate).
      destruct (seq_loop _ _ _) as [[[[]|e1|] w]|] eqn:S; try discriminate.
      * destruct (wm_map w) eqn:W; inversion H; subst. apply B. eexists. split; [reflexivity|].
        eapply say_shorter_map; [eapply seq_all; [|exact S]; intros; apply MR; auto|congruence].
      * apply (seq_split _ (mf X lk c)) in S; [|intros; apply MR; auto]. destruct S as (pre & m1 & post & w1 & -> & R & S). inversion H; subst.
        assert (F1 : is_fatal e1 = false) by (destruct e1; auto).
        specialize (IM _ _ _ _ _ S F1). exists (note e1). split; [destruct e1; auto; discriminate|].
        eapply blamed_below; [left|eapply next_map; exact R|exact IM]. rewrite O. destruct e1; auto; discriminate.
    + unfold validate_array in H. destruct v; try (apply B; inversion H; subst; eexists; split; [reflexivity|]; apply say_no_array; discriminate).
      destruct (seq_loop _ _ _) as [[[[]|e1|] w]|] eqn:S; try discriminate.
      * destruct (wa_array w) eqn:W; inversion H; subst. apply B. eexists. split; [reflexivity|].
        eapply say_shorter_array; [eapply seq_all; [|exact S]; intros; apply AR; auto|congruence].
      * apply (seq_split _ (af X lk c)) in S; [|intros; apply AR; auto]. destruct S as (pre & m1 & post & w1 & -> & R & S). inversion H; subst.
        eapply St; [eapply next_array; exact R|reflexivity|]. eauto.
    + unfold validate_standalone_group in H. destruct members as [|m [|m2 ms]]; try (inversion H; subst; discriminate).
      eapply St; [apply next_group|reflexivity|eauto].
    + inversion H; subst; discriminate.
    + inversion H; subst; discriminate.
    + inversion H; subst; discriminate.
    + apply B. eapply range_complaint; eauto.
    + match goal with ct : control node |- _ => destruct ct as [target size|target l|target l|target l|target l|re|t] end; cbn [validate_control] in H.
      * apply B. eapply size_complaint; eauto.
      * apply B. eapply lt_control; eauto.
      * apply B. eapply le_control; eauto.
      * apply B. eapply gt_control; eauto.
      * apply B. eapply ge_control; eauto.
      * apply B. unfold validate_control_regexp in H. destruct v; try (inversion H; subst; eexists; split; [reflexivity|]; apply say_no_text; discriminate).
        destruct (regex_match _ _ _) eqn:R; inversion H; subst. eexists. split; [reflexivity|]. apply say_regexp; auto.
      * unfold validate_control_cbor in H. destruct v; try (apply B; inversion H; subst; eexists; split; [reflexivity|]; apply say_no_bytes; discriminate).
        destruct (cbor_decode X b) as [x|m] eqn:Dc; [|inversion H; subst; discriminate].
        destruct (of_cbor x) as [v'|e'|] eqn:Oc; try discriminate.
        -- eapply St; [eapply next_cbor; eauto|reflexivity|eauto].
        -- inversion H; subst. destruct (of_cbor_spec x) as [(y & Q & _)|(y & Q)]; rewrite Oc in Q; inversion Q; subst; discriminate.
    + eapply St; [apply next_choiceify|reflexivity|eauto].
    + apply B. destruct (MC _ _ _ _ H F) as [-> K]. eexists. split; [reflexivity|]. apply say_inline. exact K.
  - (* members of arrays *)
    intros m w c e w' H F.
    assert (O : outcome X lk (TA m w c) = Err e) by (cbn; erewrite aval_run by exact H; reflexivity).
    assert (B : complaint (TA m w c) e -> blame (TA m w c) e).
    { intros (x & -> & C). exists x. split; auto. apply blamed_here; auto. left; exact O. }
    assert (St : forall t' e', next X lk false (TA m w c) t' -> e = e' -> blame t' e' -> blame (TA m w c) e).
    { intros t' e' Nx -> (x & -> & Bl). exists x. split; auto. eapply blamed_below; [left; exact O|exact Nx|exact Bl]. }
    destruct m; cbn [validate_array_member] in H;
      try (eapply AV; [reflexivity| |exact O|exact H|exact F]; intros; eapply next_a_type; cbn; auto; eauto; fail).
    + destruct (L c name args) as [[nd' c']|e'|] eqn:E; [|inversion H; subst; rewrite (lookup_err _ _ _ _ E) in F; discriminate|discriminate].
      eapply St; [apply next_a_rule; exact E|reflexivity|eauto].
    + eapply (try_split _ (af X lk c)) in H; [|intros; apply AR; auto|].
      * destruct H as [[-> K]|(pre & o & post & w1 & _ & _ & _ & S)]; [|congruence].
        apply B. eexists. split; [reflexivity|]. eapply say_array_choice; eauto.
      * intros o s e1 s1 _ E S. destruct (IA _ _ _ _ _ E S) as (x & -> & _). eauto.
    + unfold validate_array_group in H. destruct (seq_loop _ _ _) as [[[[]|e1|] w1]|] eqn:S; try discriminate; [destruct (wa_commit w1); discriminate|].
      apply (seq_split _ (af X lk c)) in S; [|intros; apply AR; auto]. destruct S as (pre & m1 & post & w2 & -> & R & S).
      destruct (wa_rewind w1); inversion H; subst. eapply St; [eapply next_a_group; exact R|reflexivity|eauto].
    + eapply AV; [reflexivity| |exact O|exact H|exact F]. intros. eapply next_a_kv; eauto.
    + unfold validate_array_occur in H. rewrite limits_bounds in *; destruct (bounds limit) as [lo up] eqn:Li. destruct (occur_loop _ _ _ _ _) as [[r w1]|] eqn:S; [|discriminate].
      apply (occur_split _ (af X lk c m)) with (s0 := w) in S; [|intros; apply AR; auto|constructor|auto].
      destruct r as [k|e1|]; try discriminate.
      * destruct (N.ltb_spec k lo); inversion H; subst. apply B. rewrite show_occur_text. eexists. split; [reflexivity|]. apply say_more.
        unfold too_few. rewrite Li; cbn [fst snd]. destruct S as [(s1 & x & R & K & E)|[R K]]; [exists k, s1|exists k, w']; split; auto; split; auto.
        left. split; eauto.
      * destruct S as (k1 & s1 & R & K & E & M). inversion H; subst. destruct (IA _ _ _ _ _ E F) as (x & -> & _). discriminate.
    + destruct (L c name args) as [[nd' c']|e'|] eqn:E; [|inversion H; subst; rewrite (lookup_err _ _ _ _ E) in F; discriminate|discriminate].
      unfold validate_array_unwrap in H.
      destruct nd'; try (inversion H; subst; apply B; eexists; split; [reflexivity|]; eapply say_unwrap; [exact E|discriminate]).
      apply (seq_split _ (af X lk c')) in H; [|intros; apply AR; auto]. destruct H as (pre & m1 & post & w2 & -> & R & S).
      eapply St; [eapply next_a_unwrap; [exact E|exact R]|reflexivity|eauto].
  - (* members of maps *)
    intros m w c e w' H F.
    assert (O : says X lk (TM m w c) (note e)).
    { unfold says. cbn. erewrite mval_run by exact H. destruct e; cbn; auto; discriminate. }
    assert (B : complaint (TM m w c) e -> blamed (TM m w c) (note e)).
    { intros (x & -> & C). apply blamed_here; auto. }
    assert (St : forall t', next X lk false (TM m w c) t' -> blamed t' (note e) -> blamed (TM m w c) (note e)).
    { intros t' Nx Bl. eapply blamed_below; eauto. }
    destruct m; cbn [validate_map_member] in H; try (inversion H; subst; discriminate).
    + destruct (L c name args) as [[nd' c']|e'|] eqn:E; [|inversion H; subst; rewrite (lookup_err _ _ _ _ E) in F; discriminate|discriminate].
      eapply St; [apply next_m_rule; exact E|eauto].
    + unfold validate_map_choice in H. eapply (try_split _ (mf X lk c)) in H; [|intros; apply MR; auto|].
      * destruct H as [[-> K]|(pre & o & post & w1 & -> & K & E & S)].
        -- apply B. eexists. split; [reflexivity|]. eapply say_map_choice; eauto.
        -- eapply St; [eapply next_m_choice; exact K|eauto].
      * intros o s e1 s1 _ _ S. destruct e1; try discriminate; eauto.
    + unfold validate_map_group in H. destruct (seq_loop _ _ _) as [[[[]|e1|] w1]|] eqn:S; try discriminate; [destruct (wm_commit w1); discriminate|].
      apply (seq_split _ (mf X lk c)) in S; [|intros; apply MR; auto]. destruct S as (pre & m1 & post & w2 & -> & R & S).
      destruct (wm_rewind w1); inversion H; subst.
      assert (F1 : is_fatal e1 = false) by (destruct e1; auto).
      eapply St; [eapply next_m_group; [reflexivity|exact R]|]. replace (note (erase_mapcut e1)) with (note e1) by (destruct e1; auto). eauto.
    + unfold validate_map_keyvalue in H. destruct (validate_map_key _ _ _ _) as [[[k v]|e1|]|] eqn:K; try discriminate.
      * match type of H with match ?x with _ => _ end = _ => change x with (validate X L n v m2 c) in H end.
        destruct (validate X L n v m2 c) as [[[]|e1|]|] eqn:V; try discriminate; [destruct (wm_remove _ _); discriminate|].
        assert (Q : note e1 = note e /\ is_fatal e1 = false) by (destruct cut, e1; inversion H; subst; auto).
        destruct Q as [Q F1]. destruct (IV _ _ _ _ V F1) as (x & -> & Bl). rewrite <- Q in *. eapply St; [|exact Bl].
        eapply next_m_kv with (k := k). eapply key_run; [exact VR|exact K].
      * inversion H; subst. apply B. eapply key_complaint; [exact VR|exact K].
    + unfold validate_map_occur in H. rewrite limits_bounds in *; destruct (bounds limit) as [lo up] eqn:Li. destruct (occur_loop _ _ _ _ _) as [[r w1]|] eqn:S; [|discriminate].
      apply (occur_split _ (mf X lk c m)) with (s0 := w) in S; [|intros; apply MR; auto|constructor|auto].
      destruct r as [k|e1|]; try discriminate.
      * destruct (N.ltb_spec k lo); inversion H; subst. apply B. rewrite show_occur_text. eexists. split; [reflexivity|]. apply say_more_m.
        unfold too_few. rewrite Li; cbn [fst snd]. destruct S as [(s1 & x & R & K & E)|[R K]]; [exists k, s1|exists k, w']; split; auto; split; auto.
        left. split; eauto.
      * destruct S as (k1 & s1 & R & K & E & M). inversion H; subst. eapply St; [eapply next_m_occur; [exact R|rewrite Li; exact K]|eauto].
    + destruct (L c name args) as [[nd' c']|e'|] eqn:E; [|inversion H; subst; rewrite (lookup_err _ _ _ _ E) in F; discriminate|discriminate].
      unfold validate_map_unwrap in H.
      destruct nd'; try (inversion H; subst; apply B; eexists; split; [reflexivity|]; eapply say_unwrap_m; [exact E|discriminate]).
      apply (seq_split _ (mf X lk c')) in H; [|intros; apply MR; auto]. destruct H as (pre & m1 & post & w2 & -> & R & S).
      eapply St; [eapply next_m_unwrap; [exact E|exact R]|eauto].
    + eapply St; [apply next_m_choiceify|eauto].
    + unfold validate_map_choice in H. eapply (try_split _ (mf X lk c)) in H; [|intros; apply MR; auto|].
      * destruct H as [[-> K]|(pre & o & post & w1 & -> & K & E & S)].
        -- apply B. eexists. split; [reflexivity|]. eapply say_map_inline; eauto.
        -- eapply St; [eapply next_m_inline; exact K|eauto].
      * intros o s e1 s1 _ _ S. destruct e1; try discriminate; eauto.
  - (* names used as choices *)
    intros name args v c e H F.
    assert (O : outcome X lk (TC name args v c) = Err e) by (cbn; eapply chval_run; eauto).
    cbn [validate_choiceify] in H.
    destruct (L c name args) as [[nd' c']|e'|] eqn:E; [|inversion H; subst; rewrite (lookup_err _ _ _ _ E) in F; discriminate|discriminate].
    destruct nd'; try (inversion H; subst; discriminate).
    + destruct (IC _ _ _ _ _ H F) as (x & -> & Bl). exists x. split; auto. eapply blamed_below; [left; exact O|apply next_c_rule; exact E|exact Bl].
    + destruct (MC _ _ _ _ H F) as [-> K]. eexists. split; [reflexivity|]. apply blamed_here; [left; exact O|]. eapply say_one_of; eauto.
  - intros name args w c e w' H F.
    assert (O : says X lk (TMC name args w c) (note e)).
    { unfold says. cbn. erewrite mchval_run by exact H. destruct e; cbn; auto; discriminate. }
    cbn [validate_map_choiceify] in H.
    destruct (L c name args) as [[nd' c']|e'|] eqn:E; [|inversion H; subst; rewrite (lookup_err _ _ _ _ E) in F; discriminate|discriminate].
    destruct nd'; try (inversion H; subst; discriminate).
    + eapply blamed_below; [exact O|apply next_mc_rule; exact E|eauto].
    + destruct (MMC _ _ _ _ _ H F) as [[-> K]|(pre & o & post & w1 & -> & K & Bl)].
      * apply blamed_here; [exact O|]. eapply say_map_one_of; eauto.
      * eapply blamed_below; [exact O|eapply next_mc_group; eauto|exact Bl].
Qed.
End Blame.
