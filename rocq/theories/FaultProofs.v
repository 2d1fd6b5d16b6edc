(** The conversion of syntax trees reports the fault of SpecFault.v. *)
From Coq Require Import List Bool ZArith NArith String Lia.
From Verif Require Import Base Util Data Ivt Convert Validate Ast Flatten ValueOrder ConvertProofs SpecFlatten FlattenProofs FlattenSupported SpecFault.
Import ListNotations.
Open Scope list_scope.

Ltac inv H := inversion H; subst; clear H.

Lemma bind_err {A B} (r : res A) (f : A -> res B) e :
  bind_res r f = Err e <-> r = Err e \/ exists a, r = Ok a /\ f a = Err e.
Proof.
  destruct r as [a|e'|]; cbn.
  - split; [eauto|]. intros [H|(b & [= <-] & H)]; [discriminate|auto].
  - split; [intros [= <-]; auto|]. intros [H|(b & H & _)]; [congruence|discriminate].
  - split; [discriminate|]. intros [H|(b & H & _)]; discriminate.
Qed.
Lemma bind_err_ok {A B} (r : res A) (f : A -> B) e : bind_res r (fun a => Ok (f a)) = Err e <-> r = Err e.
Proof. rewrite bind_err. split; [intros [H|(a & _ & H)]; [auto|discriminate]|auto]. Qed.

Lemma collect_first {A B} (f : A -> res B) (P Q : A -> Prop) l e :
  (forall x, P x <-> exists y, f x = Ok y) -> Forall (fun x => f x = Err e <-> Q x) l ->
  (collect_res f l = Err e <-> first P Q l).
Proof.
  intros HP HQ. rewrite collect_err. rewrite Forall_forall in HQ. split; intros (pre & x & post & -> & F & H); exists pre, x, post.
  - split; auto. split; [eapply Forall_impl; [|exact F]; intros a; apply HP|apply HQ; auto; apply in_elt].
  - split; auto. split; [eapply Forall_impl; [|exact F]; intros a; apply HP|apply HQ; auto; apply in_elt].
Qed.

Section WithX.
Variable X : ext.
Notation rx := (regex_compiles X).

Lemma sup1 t : supported1 rx t <-> exists nd, flatten_type1 X t = Ok nd.
Proof. rewrite (proj1 (proj2 (supported_iff rx)) t). split; intros (nd & H); exists nd; apply flatten1_exact; auto. Qed.
Lemma sup2 t : supported2 rx t <-> exists nd, flatten_type2 X t = Ok nd.
Proof. rewrite (proj1 (proj1 (supported_iff rx) t)). split; intros (nd & H); exists nd; apply flatten2_exact; auto. Qed.
Lemma supe t : supported_entry rx t <-> exists nd, flatten_grpent X t = Ok nd.
Proof. rewrite (proj1 (proj2 (proj2 (supported_iff rx))) t). split; intros (nd & H); exists nd; apply flatten_entry_exact; auto. Qed.
Lemma supes es : Forall (supported_entry rx) es <-> exists l, collect_res (flatten_grpent X) es = Ok l.
Proof.
  rewrite (forall_exists (supported_entry rx) (fun e nd => flatten_grpent X e = Ok nd)); [|apply Forall_all; intros; apply supe].
  split; intros (l & H); exists l; apply collect_ok; auto.
Qed.
Lemma sup1s ts : Forall (supported1 rx) ts <-> exists l, collect_res (flatten_type1 X) ts = Ok l.
Proof.
  rewrite (forall_exists (supported1 rx) (fun e nd => flatten_type1 X e = Ok nd)); [|apply Forall_all; intros; apply sup1].
  split; intros (l & H); exists l; apply collect_ok; auto.
Qed.
Lemma supr r : supported_rule rx r <-> exists p, flatten_rule X r = Ok p.
Proof.
  rewrite supported_rule_iff. split.
  - intros (d & M). exists (r_name r, d). apply flatten_rule_exact. auto.
  - intros ([n d] & H). apply flatten_rule_exact in H. exists d. apply H.
Qed.
Lemma supp t : supported_point rx t <-> exists nd, range_point_with (flatten_type1 X) t = Ok nd.
Proof.
  rewrite (proj2 (proj1 (supported_iff rx) t)).
  assert (E : forall nd, means1 rx (T1Range t t true) nd <-> flatten_type1 X (T1Range t t true) = Ok nd) by (intros; symmetry; apply flatten1_exact).
  split.
  - intros (nd & M). assert (H : means1 rx (T1Range t t true) (NRange nd nd true)) by (constructor; auto). apply E in H. rewrite ft1_eq in H.
    destruct (range_point_with (flatten_type1 X) t); cbn in H; try discriminate. eauto.
  - intros (nd & M). assert (H : flatten_type1 X (T1Range t t true) = Ok (NRange nd nd true)) by (rewrite ft1_eq, M; reflexivity).
    apply E in H. inv H. eauto.
Qed.

Lemma name_fault name args e : Forall (fun t => flatten_type1 X t = Err e <-> fault1 rx t e) args ->
  (flatten_name_generic_with (flatten_type1 X) name args = Err e <-> fault_name rx name args e).
Proof.
  intros F. unfold flatten_name_generic_with. destruct (name_cases name) as [U|(s & r & H & ->)].
  - rewrite typename_user by auto. cbn [bind_res]. rewrite bind_err_ok, (collect_first _ _ _ _ _ sup1 F). split.
    + intros C. apply fault_argument; auto.
    + intros C. inv C; auto; exfalso; eapply table_user; eauto.
  - rewrite (typename_table _ _ H). destruct r as [nd|]; cbn [bind_res].
    + assert (Sh : match nd with NRule _ _ => False | _ => True end) by (destruct (table_shape _ _ H) as [(p & ->)|(b & -> & _)]; exact I).
      destruct nd; try contradiction; destruct args as [|a args]; split; try discriminate; intros C;
        try (injection C as <-; eapply fault_generic; [exact H|discriminate]);
        inv C; try congruence;
        try match goal with E : txt _ = txt _ |- _ => apply txt_inj in E; subst end;
        try match goal with H1 : In (?s, None) _, H2 : In (?s, Some _) _ |- _ => pose proof (table_fun _ _ _ H1 H2); discriminate end;
        try (exfalso; eapply table_user; [exact H|assumption]).
    + split.
      * intros [= <-]. apply fault_prelude; auto.
      * intros C; inv C; try (exfalso; eapply table_user; [exact H|assumption]);
        match goal with E : txt _ = txt _ |- _ => apply txt_inj in E; subst end; auto.
        match goal with H1 : In (?s, None) _, H2 : In (?s, Some _) _ |- _ => pose proof (table_fun _ _ _ H1 H2); discriminate end.
Qed.

Lemma type_fault ts e : Forall (fun t => flatten_type1 X t = Err e <-> fault1 rx t e) ts ->
  (flatten_type_with (flatten_type1 X) ts = Err e <-> fault_type rx ts e).
Proof.
  intros F. unfold flatten_type_with. rewrite bind_err, (collect_first _ _ _ _ _ sup1 F). split.
  - intros [C|(os & C & D)]; [apply fault_option; auto|]. destruct os as [|o [|]]; try discriminate. injection D as <-.
    apply collect_ok in C. inv C. constructor.
  - intros C. inv C; auto. right. exists []. auto.
Qed.
Lemma group_fault g e : Forall (Forall (fun m => flatten_grpent X m = Err e <-> fault_entry rx m e)) g ->
  (flatten_group_with (flatten_grpent X) g = Err e <-> fault_group rx g e).
Proof.
  intros F.
  assert (O : flatten_group_with (flatten_grpent X) g = Err e <->
    first (Forall (supported_entry rx)) (first (supported_entry rx) (fun m => fault_entry rx m e)) g).
  { assert (C : collect_res (fun gc => bind_res (collect_res (flatten_grpent X) gc) (fun members => Ok (NGroup members))) g = Err e <->
      first (Forall (supported_entry rx)) (first (supported_entry rx) (fun m => fault_entry rx m e)) g).
    { apply collect_first.
      - intros es. rewrite supes. destruct (collect_res (flatten_grpent X) es); cbn; split; intros (y & H); try discriminate; eauto.
      - eapply Forall_impl; [|exact F]. intros es Fe. rewrite bind_err_ok. apply collect_first; auto. apply supe. }
    unfold flatten_group_with. destruct g as [|es [|es' g]].
    - rewrite bind_err_ok. exact C.
    - rewrite <- C. cbn. destruct (collect_res (flatten_grpent X) es); cbn; split; congruence.
    - rewrite bind_err_ok. exact C. }
  rewrite O. split; [apply fault_member|intros C; inv C; auto].
Qed.
Lemma rule_generic_fault name args e : 
  (flatten_rule_generic_with (flatten_type1 X) name args = Err e <->
   e = EGenericError /\ ~ (user_name name /\ Forall (supported1 rx) args)).
Proof.
  unfold flatten_rule_generic_with. rewrite sup1s.
  destruct (flatten_name_generic_with (flatten_type1 X) name args) as [nd|e'|] eqn:E; unfold flatten_name_generic_with in E.
  - destruct (name_cases name) as [U|(s & r & H & ->)].
    + rewrite typename_user in E by auto. cbn [bind_res] in E. destruct (collect_res _ args); try discriminate. injection E as <-.
      split; [discriminate|]. intros [_ []]. eauto.
    + rewrite (typename_table _ _ H) in E. destruct r; [|discriminate]. cbn [bind_res] in E.
      assert (~ user_name (txt s)) by (eapply table_user; eauto).
      destruct (table_shape _ _ H) as [(p & ->)|(b & -> & _)]; destruct args; try discriminate; injection E as <-; split;
        try (intros [= <-]; split; auto; intros [? ?]; auto); intros [-> _]; auto.
  - assert (N : ~ (user_name name /\ exists l, collect_res (flatten_type1 X) args = Ok l)).
    { intros [U (l & C)]. rewrite typename_user in E by auto. cbn [bind_res] in E. rewrite C in E. discriminate. }
    split; [intros [= <-]; auto|intros [-> _]; auto].
  - assert (Fi : fine (flatten_type2 X (T2Typename name args))) by apply (flatten_fine X).
    rewrite ft2_eq in Fi. unfold flatten_name_generic_with in Fi. rewrite E in Fi. destruct Fi.
Qed.

Lemma point_fault t e : flatten_type2 X t = Err e <-> fault2 rx t e ->
  (range_point_with (flatten_type1 X) t = Err e <-> fault_point rx t e).
Proof.
  intros H. unfold range_point_with. rewrite bind_err.
  assert (B : forall nd, match nd with NRule _ _ | NLiteral _ => Ok nd | _ => Err (EStructural (txt "bad type on range operator")) end = Err e ->
     e = structural "bad type on range operator") by (intros [] C; inversion C; reflexivity).
  destruct t as [v|name args| | | | | |]; try (split;
    [intros [[= <-]|(nd & D & _)]; [apply fault_pother; discriminate|discriminate]
    |intros C; inv C; auto]).
  - split.
    + intros [C|(nd & C & D)]; [destruct v; discriminate|]. destruct v; injection C as <-; discriminate.
    + intros C; inv C. exfalso. eapply H0. reflexivity.
  - rewrite ft2_eq in H. assert (Hn : flatten_name_generic_with (flatten_type1 X) name args = Err e <-> fault_name rx name args e).
    { rewrite H. split; [intros C; inv C; auto|constructor; auto]. }
    rewrite Hn. split.
    + intros [C|(nd & C & D)]; [constructor; auto|]. rewrite (B _ D).
      assert (M : means2 rx (T2Typename name args) nd) by (apply flatten2_exact; rewrite ft2_eq; auto).
      inv M; [|discriminate]. destruct (table_shape _ _ H3) as [(p & ->)|(b & -> & _)]; [|discriminate]. eapply fault_pclass; eauto.
    + intros C. inv C; auto.
      * right. exists (NPrelude p). split; auto. assert (F : flatten_type2 X (T2Typename (txt s) []) = Ok (NPrelude p)) by (apply flatten2_exact; constructor; auto).
        rewrite ft2_eq in F. auto.
      * exfalso. eapply H1; reflexivity.
Qed.

Lemma misfit_ok op t a t' a' e k : means2 rx t t' -> means2 rx a a' ->
  In (op, k) [("size", control_size); ("lt", control_compare CtlLt (txt ".lt limit type")); ("le", control_compare CtlLe (txt ".le limit type"));
   ("gt", control_compare CtlGt (txt ".gt limit type")); ("ge", control_compare CtlGe (txt ".ge limit type"));
   ("regexp", control_regex X); ("cbor", control_cbor)]%string ->
  (k t' a' = Err e <-> misfit rx op (peel t) (peel a) e).
Proof.
  intros Mt Ma I. apply peel_exact, peel_shape in Mt, Ma. pose proof (shape_limit _ _ Ma) as L. pose proof (shape_range _ _ Ma) as R.
  pose proof (fun re => shape_text _ _ re Ma) as T. pose proof (fun q => shape_prelude _ _ q Mt) as Q.
  assert (Cmp : forall mk s, (control_compare mk (txt s) t' a' = Err e <-> ~ limit_syntax (peel a) /\ e = unsupported s)).
  { intros mk s. rewrite L. unfold is_limit, control_compare.
    destruct a' as [[]| | | | | | | | | | | | |]; split; try (intros [= <-]; split; auto; intros [(z & [=])|(n & ? & [=])]); try discriminate;
      try (intros [_ ->]; reflexivity); intros [N _]; exfalso; apply N; eauto. }
  repeat (destruct I as [I|I]; [injection I as <- <-|]); [| | | | | | |destruct I].
  - assert (S : control_size t' a' = Err e <-> ~ limit_syntax (peel a) /\ ~ is_range (peel a) /\ e = unsupported ".size limit type").
    { unfold is_range. rewrite L, R. unfold is_limit, control_size.
      destruct a' as [[]| | | | | | | | | | | | |]; split; try (intros [= <-]; repeat split; auto; [intros [(z & [=])|(n & ? & [=])]|intros (? & ? & ? & [=])]); try discriminate;
      try (intros (_ & _ & ->); reflexivity); intros (N1 & N2 & _); exfalso; try (apply N1; eauto; fail); apply N2; eauto. }
    rewrite S. split; [intros (? & ? & ->); constructor; auto|intros C; inv C; auto].
  - rewrite Cmp. split; [intros [? ->]; constructor; auto|intros C; inv C; auto].
  - rewrite Cmp. split; [intros [? ->]; constructor; auto|intros C; inv C; auto].
  - rewrite Cmp. split; [intros [? ->]; constructor; auto|intros C; inv C; auto].
  - rewrite Cmp. split; [intros [? ->]; constructor; auto|intros C; inv C; auto].
  - unfold control_regex. split.
    + intros C. destruct t' as [|[]| | | | | | | | | | | |]; try (injection C as <-; apply misfit_target; rewrite Q; discriminate).
      assert (NP : names_prelude PTstr (peel t)) by (apply Q; auto).
      destruct a' as [[]| | | | | | | | | | | | |]; try (injection C as <-; apply misfit_regexp; auto; unfold is_text; intros re; rewrite T; discriminate).
      match type of C with (if ?b then _ else _) = _ => destruct b eqn:E; [discriminate|] end. injection C as <-. eapply misfit_malformed; eauto. apply T; auto.
    + intros C. inv C.
      * rewrite Q in H. destruct t' as [|[]| | | | | | | | | | | |]; try reflexivity. destruct H; auto.
      * apply Q in H. subst t'. destruct a' as [[]| | | | | | | | | | | | |]; try reflexivity. exfalso. eapply H0. apply T. reflexivity.
      * apply Q in H. subst t'. apply T in H0. subst a'. rewrite H1. reflexivity.
  - unfold control_cbor. split.
    + intros C. destruct t' as [|[]| | | | | | | | | | | |]; try (injection C as <-; apply misfit_cbor; rewrite Q; discriminate). discriminate.
    + intros C. inv C. rewrite Q in H. destruct t' as [|[]| | | | | | | | | | | |]; try reflexivity. destruct H; auto.
Qed.

Lemma control_fault t a op e : (flatten_type2 X t = Err e <-> fault2 rx t e) -> (flatten_type2 X a = Err e <-> fault2 rx a e) ->
  (flatten_control_with X (flatten_type2 X) t a op = Err e <-> fault1 rx (T1Control t a op) e).
Proof.
  intros Ht Ha.
  assert (K : forall s k, In (s, k) [("size", control_size); ("lt", control_compare CtlLt (txt ".lt limit type")); ("le", control_compare CtlLe (txt ".le limit type"));
   ("gt", control_compare CtlGt (txt ".gt limit type")); ("ge", control_compare CtlGe (txt ".ge limit type"));
   ("regexp", control_regex X); ("cbor", control_cbor)]%string ->
   (bind_res (flatten_type2 X t) (fun t' => bind_res (flatten_type2 X a) (fun a' => bind_res (k t' a') (fun c => Ok (NControl c)))) = Err e <->
    fault1 rx (T1Control t a (txt s)) e)).
  { intros s k I. assert (Io : In s operators) by (unfold operators; cbn in *; intuition congruence).
    rewrite bind_err. split.
    - intros [C|(t' & Ct & C)]; [apply fault_target; auto; apply Ht; auto|].
      assert (St : supported2 rx t) by (apply sup2; eauto). apply bind_err in C. destruct C as [C|(a' & Ca & C)]; [apply fault_operand; auto; apply Ha; auto|].
      assert (Sa : supported2 rx a) by (apply sup2; eauto). apply bind_err_ok in C. apply fault_misfit; auto.
      eapply (misfit_ok _ _ _ t' a'); eauto; apply flatten2_exact; auto.
    - intros C. inv C.
      + exfalso. match goal with N : ~ In _ (map _ _) |- _ => apply N; apply in_map; auto end.
      + left. apply Ht. auto.
      + match goal with S : supported2 _ t |- _ => apply sup2 in S; destruct S as (t' & E) end. right. exists t'. split; auto. rewrite bind_err. left. apply Ha; auto.
      + match goal with E : txt _ = txt _ |- _ => apply txt_inj in E; subst end.
        match goal with S : supported2 _ t |- _ => apply sup2 in S; destruct S as (t' & E) end. right. exists t'. split; auto. rewrite bind_err. right.
        match goal with S : supported2 _ a |- _ => apply sup2 in S; destruct S as (a' & E') end.
        exists a'. split; auto. apply bind_err_ok. eapply (misfit_ok _ _ _ t' a'); eauto; apply flatten2_exact; auto. }
  unfold flatten_control_with.
  repeat match goal with |- context [if text_eqb op (txt ?s) then _ else _] =>
    let E := fresh "E" in destruct (text_eqb op (txt s)) eqn:E; [apply text_eqb_eq in E; subst op; apply (K s); cbn; auto 10|] end.
  split.
  - intros [= <-]. apply fault_operator. intros I. apply in_map_iff in I. destruct I as (s & <- & I). cbn in I.
    repeat (destruct I as [<-|I]; [match goal with E : text_eqb (txt ?s) (txt ?s) = false |- _ => rewrite text_eqb_refl in E; discriminate end|]). destruct I.
  - assert (No : ~ In op (map txt operators)).
    { intros I. apply in_map_iff in I. destruct I as (s & <- & I). cbn in I.
      repeat (destruct I as [<-|I]; [match goal with E : text_eqb (txt ?s) (txt ?s) = false |- _ => rewrite text_eqb_refl in E; discriminate end|]). destruct I. }
    intros C. inv C; auto; exfalso; apply No; apply in_map; auto. match goal with S : misfit _ _ _ _ _ |- _ => inv S end; cbn; auto 10.
Qed.

Lemma flatten_faults e :
  (forall t, flatten_type2 X t = Err e <-> fault2 rx t e) /\
  (forall t, flatten_type1 X t = Err e <-> fault1 rx t e) /\
  (forall g, flatten_grpent X g = Err e <-> fault_entry rx g e) /\
  (forall v, flatten_grpent_val X v = Err e <-> fault_val rx v e).
Proof.
  assert (V : forall key ts, Forall (fun t => flatten_type1 X t = Err e <-> fault1 rx t e) ts ->
    match key with Some (MKey (MKType1 _) _) => False | _ => True end ->
    (flatten_grpent_val X (GMember key ts) = Err e <-> fault_val rx (GMember key ts) e)).
  { intros key ts F K. rewrite ftv_eq. apply type_fault in F.
    assert (E : match key with Some (MKey kv cut) => bind_res (flatten_memberkey X kv) (fun key0 => bind_res (flatten_type_with (flatten_type1 X) ts) (fun val => Ok (NKeyValue key0 val cut)))
      | None => flatten_type_with (flatten_type1 X) ts end = Err e <-> flatten_type_with (flatten_type1 X) ts = Err e).
    { destruct key as [[[s|t|v] cut]|]; try contradiction; try reflexivity; [|destruct v]; cbn; apply bind_err_ok. }
    rewrite E, F. split.
    - intros C. apply fault_value; auto. destruct key as [[[]]|]; auto. contradiction.
    - intros C. inv C; [contradiction|auto]. }
  apply ast_ind.
  - intros v. split; [destruct v; discriminate|intros C; inv C].
  - intros n a F. rewrite ft2_eq, name_fault by auto. split; [constructor; auto|intros C; inv C; auto].
  - intros t F. rewrite ft2_eq, type_fault by auto. split; [constructor; auto|intros C; inv C; auto].
  - intros g F. rewrite ft2_eq, bind_err_ok, group_fault by auto. split; [constructor; auto|intros C; inv C; auto].
  - intros g F. rewrite ft2_eq, bind_err_ok, group_fault by auto. split; [constructor; auto|intros C; inv C; auto].
  - intros n a F. rewrite ft2_eq, bind_err_ok, rule_generic_fault. split; [intros [-> ?]; constructor; auto|intros C; inv C; auto].
  - intros g F. rewrite ft2_eq, bind_err_ok, group_fault by auto. split; [constructor; auto|intros C; inv C; auto].
  - intros n a F. rewrite ft2_eq, bind_err_ok, rule_generic_fault. split; [intros [-> ?]; constructor; auto|intros C; inv C; auto].
  - intros t H. rewrite ft1_eq, H. split; [constructor; auto|intros C; inv C; auto].
  - intros s t i Hs Ht. rewrite ft1_eq, bind_err. apply point_fault in Hs, Ht. split.
    + intros [C|(s' & E & C)]; [apply fault_start, Hs; auto|]. apply bind_err_ok in C. apply fault_end; [apply supp; eauto|apply Ht; auto].
    + intros C. inv C; [left; apply Hs; auto|]. right. match goal with S : supported_point _ s |- _ => apply supp in S; destruct S as (s' & E) end. exists s'. split; auto. apply bind_err_ok. apply Ht; auto.
  - intros t a o Ht Ha. rewrite ft1_eq. apply control_fault; auto.
  - intros o v H. rewrite fte_eq, bind_err_ok, H. split; [constructor; auto|intros C; inv C; auto].
  - intros t F. apply V; auto.
  - intros s c t F. apply V; auto.
  - intros v c t F. apply V; auto.
  - intros k c t Hk F. rewrite ftv_eq, bind_err, fmk_eq, Hk. apply type_fault in F. split.
    + intros [C|(kd & E & C)]; [constructor; auto|]. apply bind_err_ok in C. apply fault_value; [apply sup1; eauto|apply F; auto].
    + intros C. inv C; auto. match goal with S : supported1 _ k |- _ => apply sup1 in S; destruct S as (kd & E) end. right. exists kd. split; auto. apply bind_err_ok. apply F; auto.
  - intros s. rewrite ftv_eq. destruct (name_cases s) as [U|(s' & r & H & ->)].
    + rewrite typename_user by auto. split; [discriminate|]. intros C. inv C. exfalso; eapply table_user; eauto.
    + rewrite (typename_table _ _ H). destruct r; split; try discriminate.
      * intros C. inv C. match goal with E : txt _ = txt _ |- _ => apply txt_inj in E; subst end. pose proof (table_fun _ _ _ H H1); discriminate.
      * intros [= <-]. constructor; auto.
      * intros C. inv C. match goal with E : txt _ = txt _ |- _ => apply txt_inj in E; subst end. reflexivity.
  - intros g F. rewrite ftv_eq, bind_err_ok, group_fault by auto. split; [constructor; auto|intros C; inv C; auto].
Qed.

Lemma rule_fault r e : flatten_rule X r = Err e <-> fault_rule rx r e.
Proof.
  destruct r as [name ps [ts|g]]; unfold flatten_rule; cbn; rewrite bind_err_ok.
  - unfold flatten_type. rewrite type_fault by (apply Forall_all; intros; apply flatten_faults). split; [constructor; auto|intros C; inv C; auto].
  - rewrite (proj1 (proj2 (proj2 (flatten_faults e)))). split; [constructor; auto|intros C; inv C; auto].
Qed.
Theorem schema_fault c e : flatten X c = Err e <-> fault_schema rx c e.
Proof. unfold flatten, fault_schema. rewrite bind_err_ok. apply collect_first; [apply supr|]. apply Forall_all. intros. apply rule_fault. Qed.
End WithX.
