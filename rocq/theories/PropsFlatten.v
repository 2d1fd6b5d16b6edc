(** Flattening of syntax trees: C37-C41. *)
From Coq Require Import List Bool ZArith NArith String Lia Permutation.
From Verif Require Import Base Util Data Value Convert Ivt Validate Ast Flatten Fun ValueOrder ConvertProofs SpecConvert ConvertExact
  SpecBase SpecCtx SpecFlatten FlattenProofs FlattenSupported FlattenMap CtxProofs Demo.
Import ListNotations.
Open Scope list_scope.

(** ** Lemmas *)

Lemma flatten_ok X c rs : flatten X c = Ok rs <->
  exists l, Forall2 (fun r p => fst p = r_name r /\ means_rule (regex_compiles X) r (snd p)) c l /\ rs = tm_collect l.
Proof.
  unfold flatten. split.
  - destruct (collect_res (flatten_rule X) c) as [l|e|] eqn:E; try discriminate. intros [= <-]. exists l. split; auto.
    apply collect_ok in E. induction E as [|r [n d] c l H E IH]; constructor; auto. apply flatten_rule_exact in H. auto.
  - intros (l & F & ->). replace (collect_res (flatten_rule X) c) with (Ok l); auto. symmetry. apply collect_ok.
    induction F as [|r [n d] c l [E M] F IH]; constructor; auto. apply flatten_rule_exact. auto.
Qed.

Lemma means_rule_unique X r d d' : means_rule (regex_compiles X) r d -> means_rule (regex_compiles X) r d' -> d = d'.
Proof.
  intros M M'. assert (E : flatten_rule X r = Ok (r_name r, d)) by (apply flatten_rule_exact; auto).
  assert (E' : flatten_rule X r = Ok (r_name r, d')) by (apply flatten_rule_exact; auto). congruence.
Qed.

Lemma last_rule_snoc name r c x : last_rule name r (c ++ [x]) <->
  (r_name x = name /\ r = x) \/ (r_name x <> name /\ last_rule name r c).
Proof.
  split.
  - intros (pre & post & E & Er & N). induction post as [|q post _] using rev_ind.
    + apply app_inj_tail in E. destruct E as [_ ->]. auto.
    + right. rewrite app_comm_cons, app_assoc in E. apply app_inj_tail in E. destruct E as [E ->].
      rewrite map_app, in_app_iff in N. cbn in N. split; [intros H; tauto|]. exists pre, post. split; auto.
  - intros [[E ->]|[N (pre & post & -> & E & H)]].
    + exists c, []. auto.
    + exists pre, (post ++ [x]). split; [rewrite <- app_assoc; reflexivity|]. split; auto.
      rewrite map_app, in_app_iff. cbn. intuition.
Qed.

Lemma forall2_mono {A B} (R R' : A -> B -> Prop) l l' : (forall a b, R a b -> R' a b) -> Forall2 R l l' -> Forall2 R' l l'.
Proof. induction 2; auto. Qed.
Lemma forall2_snoc {A B} (R : A -> B -> Prop) l x l' : Forall2 R (l ++ [x]) l' ->
  exists m y, l' = m ++ [y] /\ Forall2 R l m /\ R x y.
Proof.
  intros F. apply Forall2_app_inv_l in F. destruct F as (m & n & F & G & ->). inversion G as [|? y ? ? Hy Hn]; subst.
  inversion Hn; subst. eauto.
Qed.

Lemma last_pair {A} (R : rule -> A -> Prop) c l name d :
  Forall2 (fun r p => fst p = r_name r /\ R r (snd p)) c l ->
  (last_entry name d l -> exists r, last_rule name r c /\ R r d) /\
  (forall r, last_rule name r c -> exists d, last_entry name d l /\ R r d).
Proof.
  revert l d. induction c as [|x c IH] using rev_ind; intros l d F.
  - inversion F; subst. split; [intros ([|] & post & E & _); discriminate|intros r ([|] & post & E & _); discriminate].
  - apply forall2_snoc in F. destruct F as (m & [n d'] & -> & F & E & HR). cbn in *. subst n. split.
    + intros L. apply last_entry_snoc in L. cbn in L. destruct L as [[-> ->]|[N L]].
      * exists x. split; auto. apply last_rule_snoc. auto.
      * destruct (proj1 (IH m d F) L) as (r & Lr & Rr). exists r. split; auto. apply last_rule_snoc. right. split; auto.
    + intros r L. apply last_rule_snoc in L. destruct L as [[<- ->]|[N L]].
      * exists d'. split; auto. apply last_entry_snoc. auto.
      * destruct (proj2 (IH m d F) r L) as (e & Le & Re). exists e. split; auto. apply last_entry_snoc. right. split; auto.
Qed.
Lemma last_rule_unique name r r' c : last_rule name r c -> last_rule name r' c -> r = r'.
Proof.
  induction c as [|x c IH] using rev_ind; intros L L'.
  - destruct L as ([|] & post & E & _); discriminate.
  - apply last_rule_snoc in L, L'. intuition congruence.
Qed.

(** ** C38 *)

Theorem C38_success : forall X c,
  (exists rs, flatten X c = Ok rs) <-> Forall (supported_rule (regex_compiles X)) c.
Proof.
  intros X c. split.
  - intros (rs & H). apply flatten_ok in H. destruct H as (l & F & _). induction F as [|r p c l [_ M] F IH]; constructor; auto.
    apply supported_rule_iff. eauto.
  - intros F. assert (H : exists l, Forall2 (fun r p => fst p = r_name r /\ means_rule (regex_compiles X) r (snd p)) c l).
    { induction F as [|r c Hr F (l & IH)]; [eauto|]. apply supported_rule_iff in Hr. destruct Hr as (d & M).
      exists ((r_name r, d) :: l). constructor; auto. }
    destruct H as (l & H). exists (tm_collect l). apply flatten_ok. eauto.
Qed.

Theorem C38_last_definition_wins : forall X c rs name def, flatten X c = Ok rs ->
  (rules_get rs name = Some def <-> exists r, last_rule name r c /\ means_rule (regex_compiles X) r def).
Proof.
  intros X c rs name def H. apply flatten_ok in H. destruct H as (l & F & ->).
  rewrite rules_get_in by apply tm_collect_sorted. rewrite tm_collect_in. split.
  - apply (last_pair _ _ _ _ _ F).
  - intros (r & L & M). destruct (proj2 (last_pair _ _ _ name def F) r L) as (d & Le & Md).
    rewrite (means_rule_unique _ _ _ _ M Md). auto.
Qed.

Theorem C38_rule_order_irrelevant : forall X c c' rs,
  NoDup (map r_name c) -> Permutation c c' -> flatten X c = Ok rs -> flatten X c' = Ok rs.
Proof.
  intros X c c' rs N P H.
  assert (N' : NoDup (map r_name c')) by (eapply Permutation_NoDup; [apply Permutation_map, P|auto]).
  assert (S : exists rs', flatten X c' = Ok rs').
  { apply C38_success. eapply Permutation_Forall; [exact P|]. apply C38_success. eauto. }
  destruct S as (rs' & H'). rewrite H'. f_equal.
  assert (LR : forall c name r, NoDup (map r_name c) -> (last_rule name r c <-> In r c /\ r_name r = name)).
  { clear. intros c name r N. split.
    - intros (pre & post & -> & E & _). split; auto. apply in_elt.
    - intros [H E]. apply in_split in H. destruct H as (pre & post & ->). exists pre, post. repeat split; auto.
      rewrite map_app in N. cbn in N. apply NoDup_remove_2 in N. rewrite E in N. intros H. apply N. apply in_or_app; auto. }
  assert (S1 : tm_sorted rs) by (apply flatten_ok in H; destruct H as (? & _ & ->); apply tm_collect_sorted).
  assert (S2 : tm_sorted rs') by (apply flatten_ok in H'; destruct H' as (? & _ & ->); apply tm_collect_sorted).
  apply tm_sorted_ext; auto. intros k d. rewrite <- !rules_get_in by auto.
  rewrite (C38_last_definition_wins _ _ _ _ _ H), (C38_last_definition_wins _ _ _ _ _ H').
  split; intros (r & L & M); exists r; (split; auto); apply LR; auto; apply LR in L; auto;
    (split; [|tauto]); destruct L as [L _]; [eapply Permutation_in; [apply Permutation_sym|]|eapply Permutation_in]; eauto.
Qed.

Theorem C38_first_error_reported : forall X c e,
  flatten X c = Err e <->
  exists pre r post, c = pre ++ r :: post /\ Forall (supported_rule (regex_compiles X)) pre /\ flatten X [r] = Err e.
Proof.
  intros X c e.
  assert (A : flatten X c = Err e <-> collect_res (flatten_rule X) c = Err e).
  { unfold flatten. destruct (collect_res (flatten_rule X) c); cbn; split; intros H; try discriminate; auto; inversion H; reflexivity. }
  assert (B : forall r, flatten X [r] = Err e <-> flatten_rule X r = Err e).
  { intros r. unfold flatten. cbn. destruct (flatten_rule X r); cbn; split; intros H; try discriminate; auto; inversion H; reflexivity. }
  assert (C : forall r, (exists p, flatten_rule X r = Ok p) <-> supported_rule (regex_compiles X) r).
  { intros r. rewrite supported_rule_iff. split.
    - intros ([n d] & H). apply flatten_rule_exact in H. destruct H; eauto.
    - intros (d & M). exists (r_name r, d). apply flatten_rule_exact. auto. }
  rewrite A, collect_err. split; intros (pre & r & post & E & F & H); exists pre, r, post; (split; [auto|split; [|apply B; auto]]);
    (eapply Forall_impl; [|exact F]); intros x; apply C.
Qed.

(** ** C40 *)

Theorem C40_supported_exact : forall X r,
  (exists name def, flatten_rule X r = Ok (name, def)) <-> supported_rule (regex_compiles X) r.
Proof.
  intros X r. rewrite supported_rule_iff. split.
  - intros (n & d & H). apply flatten_rule_exact in H. destruct H; eauto.
  - intros (d & M). exists (r_name r), d. apply flatten_rule_exact. auto.
Qed.

Theorem C40_errors : forall X c,
  match flatten X c with
  | Ok _ => True
  | Err e => (exists m, e = EUnsupported m) \/ (exists m, e = EStructural m) \/ e = EGenericError
  | Panic => False
  end.
Proof.
  intros X c. assert (F : fine (flatten X c)).
  { apply fine_bind; [|intros; exact I]. apply fine_collect, Forall_all, flatten_rule_fine. }
  destruct (flatten X c); auto.
Qed.

(** ** C41 *)

(** The converted definition of a rule is the one the specification gives. *)
Theorem C41_conversion_exact : forall X r name def,
  flatten_rule X r = Ok (name, def) <-> name = r_name r /\ means_rule (regex_compiles X) r def.
Proof. exact flatten_rule_exact. Qed.

(** Members of an array or map: same number and order. *)
Theorem C41_members_in_order : forall X es nd,
  (flatten_type2 X (T2Array [es]) = Ok nd <->
   exists ms, nd = NArray ms /\ Forall2 (fun e m => flatten_grpent X e = Ok m) es ms) /\
  (flatten_type2 X (T2Map [es]) = Ok nd <->
   exists ms, nd = NMap ms /\ Forall2 (fun e m => flatten_grpent X e = Ok m) es ms).
Proof.
  intros X es nd.
  assert (G : forall ms, means_group (regex_compiles X) [es] ms <-> Forall2 (fun e m => flatten_grpent X e = Ok m) es ms).
  { intros ms. split.
    - intros M. inversion M as [? ? F|? ? N]; subst; [|cbn in N; congruence].
      eapply forall2_mono; [|exact F]. intros e m. apply flatten_entry_exact.
    - intros F. constructor. eapply forall2_mono; [|exact F]. intros e m. apply flatten_entry_exact. }
  rewrite !flatten2_exact. split; split.
  - intros M. inversion M; subst. eexists; split; [reflexivity|]. apply G; auto.
  - intros (ms & -> & F). constructor. apply G; auto.
  - intros M. inversion M; subst. eexists; split; [reflexivity|]. apply G; auto.
  - intros (ms & -> & F). constructor. apply G; auto.
Qed.

(** A member keeps its occurrence, its key and its cut. *)
Theorem C41_member : forall X o k cut t nd,
  flatten_grpent X (GrpEnt o (GMember (Some (MKey k cut)) t)) = Ok nd <->
  exists kd td,
    nd = match o with Some l => NOccur l (NKeyValue kd td cut) | None => NKeyValue kd td cut end /\
    flatten_type X t = Ok td /\
    match k with
    | MKBareword s => kd = NLiteral (LText s)
    | MKValue v => kd = NLiteral (literal_of v)
    | MKType1 t1 => flatten_type1 X t1 = Ok kd
    end.
Proof.
  intros X o k cut t nd. rewrite flatten_entry_exact. split.
  - intros M. 
    assert (V : exists nd', means_entry_val (regex_compiles X) (GMember (Some (MKey k cut)) t) nd' /\
       nd = match o with Some l => NOccur l nd' | None => nd' end) by (inversion M; subst; eauto).
    destruct V as (nd' & V & ->). inversion V; subst; eexists; eexists; (split; [destruct o; reflexivity|]);
      (split; [apply flatten_type_exact; auto|]); auto. apply flatten1_exact; auto.
  - intros (kd & td & -> & T & K). apply flatten_type_exact in T.
    assert (V : means_entry_val (regex_compiles X) (GMember (Some (MKey k cut)) t) (NKeyValue kd td cut)).
    { destruct k; subst; constructor; auto. apply flatten1_exact; auto. }
    destruct o; constructor; auto.
Qed.

(** ** C37 *)

Theorem C37_prelude_name_meaning : forall X s meaning, In (s, meaning) prelude_table ->
  (forall args,
   flatten_type2 X (T2Typename (txt s) args) =
   match meaning, args with
   | Some nd, [] => Ok nd
   | Some _, _ => Err EGenericError
   | None, _ => Err (EUnsupported (txt "prelude type '" ++ txt s ++ txt "'"))
   end) /\
  flatten_grpent_val X (GGroupname (txt s)) =
   match meaning with
   | Some nd => Ok nd
   | None => Err (EUnsupported (txt "prelude type '" ++ txt s ++ txt "'"))
   end.
Proof.
  intros X s m H. split.
  - intros args. rewrite ft2_eq. unfold flatten_name_generic_with. rewrite (typename_table _ _ H). destruct m as [nd|]; auto.
    destruct (table_shape _ _ H) as [(p & ->)|(b & -> & _)]; destruct args; reflexivity.
  - rewrite ftv_eq. rewrite (typename_table _ _ H). destruct m; reflexivity.
Qed.

Lemma same_last c c' : same_but_prelude c c' -> forall name r, user_name name -> last_rule name r c -> last_rule name r c'.
Proof.
  assert (I : forall c c', same_but_prelude c c' -> forall n, user_name n -> In n (map r_name c') -> In n (map r_name c)).
  { clear. induction 1; cbn; intros n U I; auto.
    - destruct I; auto.
    - destruct I as [<-|I]; [tauto|auto]. }
  assert (S : forall c r name, last_rule name r c -> forall x, last_rule name r (x :: c)).
  { intros c0 r name (pre & post & -> & E & N) x. exists (x :: pre), post. auto. }
  induction 1; intros name r0 U L; auto.
  - destruct L as ([|x pre] & post & E & En & N).
    + injection E as -> ->. exists [], c'. repeat split; auto. intros Hin. apply N. eapply I; eauto.
    + injection E as -> ->. apply S. apply IHsame_but_prelude; auto. exists pre, post. auto.
  - destruct L as ([|x pre] & post & E & En & N).
    + injection E as -> ->. rewrite En in *. tauto.
    + injection E as -> ->. apply IHsame_but_prelude; auto. exists pre, post. auto.
Qed.
Lemma same_sym c c' : same_but_prelude c c' -> same_but_prelude c' c.
Proof. induction 1; constructor; auto. Qed.
Lemma same_get X c c' rs rs' name : same_but_prelude c c' -> flatten X c = Ok rs -> flatten X c' = Ok rs' ->
  user_name name -> rules_get rs name = rules_get rs' name.
Proof.
  intros S H H' U.
  destruct (rules_get rs name) as [d|] eqn:E.
  - symmetry. apply (C38_last_definition_wins _ _ _ _ _ H'). apply (C38_last_definition_wins _ _ _ _ _ H) in E.
    destruct E as (r & L & M). exists r. split; auto. eapply same_last; eauto.
  - destruct (rules_get rs' name) as [d|] eqn:E'; auto.
    apply (C38_last_definition_wins _ _ _ _ _ H') in E'. destruct E' as (r & L & M).
    assert (rules_get rs name = Some d); [|congruence].
    apply (C38_last_definition_wins _ _ _ _ _ H). exists r. split; auto. eapply same_last; [apply same_sym| |]; eauto.
Qed.
Lemma rules_clean X c rs name def : flatten X c = Ok rs -> rules_get rs name = Some def -> clean (rd_node def).
Proof.
  intros H E. apply (C38_last_definition_wins _ _ _ _ _ H) in E. destruct E as (r & _ & M). eapply means_rule_clean; eauto.
Qed.

(** A rule named like a prelude type affects no other rule: adding, removing or
    changing such rules changes no verdict. *)
Theorem C37_redefinition_ineffective : forall X c c' rs rs' name def v, wf_value v ->
  flatten X c = Ok rs -> flatten X c' = Ok rs' -> same_but_prelude c c' ->
  rules_get rs name = Some def ->
  (user_name name -> rules_get rs' name = Some def) /\
  run_validate X (basic_context rs) v def = run_validate X (basic_context rs') v def.
Proof.
  intros X c c' rs rs' name def v W H H' S E. split.
  - intros U. rewrite <- (same_get _ _ _ _ _ _ S H H' U). auto.
  - apply unreachable_irrelevant; [apply wf_keys_sorted; auto|].
    assert (R : forall n, reachable (basic_context rs) def n -> user_name n).
    { intros n R. induction R as [n [M _]|n d n' R IH L [M _]].
      - exact (rules_clean _ _ _ _ _ H E _ M).
      - unfold basic_context in L. destruct (rules_get rs n) eqn:En; inversion L; subst. exact (rules_clean _ _ _ _ _ H En _ M). }
    intros n Rn. apply R in Rn. unfold basic_context. rewrite (same_get _ _ _ _ _ _ S H H' Rn). reflexivity.
Qed.

(** ** C39, the conversion part *)

Theorem C39_slice_flatten : forall X cs,
  match slice_flatten X cs, flatten X (map fst cs) with
  | Ok ss, Ok rs =>
      map (fun p => (fst p, fst (snd p))) ss = rs /\
      forall name def src, In (name, (def, src)) ss ->
      exists pre r post, cs = pre ++ (r, src) :: post /\ r_name r = name /\
        ~ In name (map r_name (map fst post)) /\ means_rule (regex_compiles X) r def
  | Err e, Err e' => e = e'
  | _, _ => False
  end.
Proof.
  intros X cs. unfold slice_flatten, flatten.
  set (f := fun rs : rule * text => bind_res (flatten_rule X (fst rs)) (fun nf => Ok (fst nf, (snd nf, snd rs)))).
  assert (E : match collect_res f cs, collect_res (flatten_rule X) (map fst cs) with
     | Ok ss, Ok rs => map (fun p => (fst p, fst (snd p))) ss = rs /\
          Forall2 (fun rs p => fst p = r_name (fst rs) /\ snd rs = snd (snd p) /\
            means_rule (regex_compiles X) (fst rs) (fst (snd p))) cs ss
     | Err e, Err e' => e = e' | _, _ => False end).
  { induction cs as [|[r s] cs IH]; cbn [collect_res map fst]; [split; [reflexivity|constructor]|].
    pose proof (flatten_rule_fine X r) as Fn. unfold f at 1; cbn [fst snd].
    destruct (flatten_rule X r) as [[n d]|e|] eqn:Er; cbn [bind_res fst snd]; auto.
    destruct (collect_res f cs) as [ss|e|], (collect_res (flatten_rule X) (map fst cs)) as [rs|e'|]; auto.
    destruct IH as [<- F]. split; [reflexivity|]. constructor; auto. cbn.
    apply flatten_rule_exact in Er. tauto. }
  destruct (collect_res f cs) as [ss|e|], (collect_res (flatten_rule X) (map fst cs)) as [rs|e'|]; auto. cbn [bind_res].
  destruct E as [<- F]. split; [symmetry; apply (tm_collect_map fst)|].
  intros name def src H. apply tm_collect_in in H. destruct H as (pre & post & -> & N).
  apply Forall2_app_inv_r in F. destruct F as (pre' & [|[r s] post'] & _ & F & ->); inversion F as [|? ? ? ? (E1 & E2 & E3) F']; subst.
  cbn in *. subst. exists pre', r, post'. repeat split; auto. intros Hin. apply N. clear - F' Hin.
  induction F' as [|x y l l' (E & _) F' IH]; cbn in *; auto. destruct Hin as [<-|Hin]; auto.
Qed.

(** ** Examples *)

Definition rule_t (n : string) (t : type2) : rule := Rule (txt n) [] (AssignType [T1Simple t]).
Definition tname (n : string) : type2 := T2Typename (txt n) [].
Definition schema1 : cddl :=
  [ rule_t "b" (T2Array [[GrpEnt (Some OZeroOrMore) (GMember None [T1Simple (tname "int")]);
                          GrpEnt None (GMember (Some (MKey (MKBareword (txt "k")) true)) [T1Simple (tname "a")])]]);
    rule_t "a" (T2Value (AUint 5));
    rule_t "int" (tname "tstr");
    rule_t "a" (tname "uint") ].
Definition rules1 : rules :=
  [ (txt "a", RuleDef [] (NPrelude PUint));
    (txt "b", RuleDef [] (NArray [NOccur OZeroOrMore (NPrelude PInt); NKeyValue (lit_s "k") (name_ "a") true]));
    (txt "int", RuleDef [] (NPrelude PTstr)) ].

Example C38_example : flatten demo_ext schema1 = Ok rules1.
Proof. vm_compute. reflexivity. Qed.
Example C38_order_example :
  NoDup (map r_name (firstn 3 schema1)) /\ Permutation (firstn 3 schema1) (rev (firstn 3 schema1)) /\
  firstn 3 schema1 <> rev (firstn 3 schema1) /\ exists rs, flatten demo_ext (firstn 3 schema1) = Ok rs.
Proof.
  split; [|split; [apply Permutation_rev|split; [discriminate|eexists; vm_compute; reflexivity]]].
  cbn. repeat constructor; cbn; intuition discriminate.
Qed.
Example C38_error_example :
  flatten demo_ext (schema1 ++ [rule_t "x" (tname "time"); rule_t "y" (T2Typename (txt "int") [T1Simple (tname "a")])]) =
    Err (EUnsupported (txt "prelude type 'time'")).
Proof. vm_compute. reflexivity. Qed.
Example C37_example :
  same_but_prelude schema1 (rule_t "any" (tname "b") :: firstn 2 schema1 ++ skipn 3 schema1) /\
  exists rs', flatten demo_ext (rule_t "any" (tname "b") :: firstn 2 schema1 ++ skipn 3 schema1) = Ok rs' /\ rs' <> rules1.
Proof.
  assert (K : forall s r, In (s, r) prelude_table -> ~ user_name (txt s)) by exact table_user.
  split.
  - apply sbp_right; [apply (K "any" (Some (NPrelude PAny)))%string; left; reflexivity|]. cbn.
    apply sbp_same, sbp_same, sbp_left, sbp_same, sbp_nil.
    apply (K "int" (Some (NPrelude PInt)))%string. cbn. intuition.
  - eexists. split; [vm_compute; reflexivity|discriminate].
Qed.
Example C40_example :
  let r := Rule (txt "r") [] (AssignType [T1Control (tname "uint") (T2Paren [T1Range (T2Value (AUint 1)) (tname "n") true]) (txt "size")]) in
  supported_rule (regex_compiles demo_ext) r /\
  ~ supported_rule (regex_compiles demo_ext) (Rule (txt "r") [] (AssignType [T1Control (tname "uint") (tname "int") (txt "size")])) /\
  ~ supported_rule (regex_compiles demo_ext) (Rule (txt "r") [] (AssignType [T1Range (T2Value (AUint 1)) (tname "int") true])).
Proof.
  cbn zeta. split; [|split].
  - apply C40_supported_exact. eexists; eexists; vm_compute; reflexivity.
  - rewrite <- C40_supported_exact. intros (n & d & H). vm_compute in H. discriminate.
  - rewrite <- C40_supported_exact. intros (n & d & H). vm_compute in H. discriminate.
Qed.
Example C41_example :
  flatten_grpent demo_ext (GrpEnt (Some OOptional) (GMember (Some (MKey (MKBareword (txt "k")) false)) [T1Simple (tname "a")])) =
  Ok (NOccur OOptional (NKeyValue (lit_s "k") (name_ "a") false)).
Proof. vm_compute. reflexivity. Qed.
Example C39_flatten_example :
  slice_flatten demo_ext (map (fun r => (r, r_name r)) schema1) =
  Ok (map (fun p => (fst p, (snd p, fst p))) rules1).
Proof. vm_compute. reflexivity. Qed.

Print Assumptions C37_prelude_name_meaning.
Print Assumptions C37_redefinition_ineffective.
Print Assumptions C38_success.
Print Assumptions C38_last_definition_wins.
Print Assumptions C38_rule_order_irrelevant.
Print Assumptions C38_first_error_reported.
Print Assumptions C39_slice_flatten.
Print Assumptions C40_supported_exact.
Print Assumptions C40_errors.
Print Assumptions C41_conversion_exact.
Print Assumptions C41_members_in_order.
Print Assumptions C41_member.
