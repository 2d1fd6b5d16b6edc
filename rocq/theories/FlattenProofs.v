(** The conversion of syntax trees computes the relation of SpecFlatten.v. *)
From Coq Require Import List Bool ZArith NArith String Lia.
From Verif Require Import Base Util Data Ivt Convert Validate Ast Flatten ValueOrder ConvertProofs SpecFlatten.
Import ListNotations.
Open Scope list_scope.

(** * Induction on syntax trees *)
Section AstInd.
Variable P2 : type2 -> Prop.
Variable P1 : type1 -> Prop.
Variable Pe : grpent -> Prop.
Variable Pv : grpent_val -> Prop.
Hypothesis h_value : forall v, P2 (T2Value v).
Hypothesis h_name : forall n a, Forall P1 a -> P2 (T2Typename n a).
Hypothesis h_paren : forall t, Forall P1 t -> P2 (T2Paren t).
Hypothesis h_map : forall g, Forall (Forall Pe) g -> P2 (T2Map g).
Hypothesis h_array : forall g, Forall (Forall Pe) g -> P2 (T2Array g).
Hypothesis h_unwrap : forall n a, Forall P1 a -> P2 (T2Unwrap n a).
Hypothesis h_chin : forall g, Forall (Forall Pe) g -> P2 (T2ChoiceifyInline g).
Hypothesis h_ch : forall n a, Forall P1 a -> P2 (T2Choiceify n a).
Hypothesis h_simple : forall t, P2 t -> P1 (T1Simple t).
Hypothesis h_range : forall s e i, P2 s -> P2 e -> P1 (T1Range s e i).
Hypothesis h_control : forall t a o, P2 t -> P2 a -> P1 (T1Control t a o).
Hypothesis h_ent : forall o v, Pv v -> Pe (GrpEnt o v).
Hypothesis h_mtype : forall t, Forall P1 t -> Pv (GMember None t).
Hypothesis h_mbare : forall s c t, Forall P1 t -> Pv (GMember (Some (MKey (MKBareword s) c)) t).
Hypothesis h_mval : forall v c t, Forall P1 t -> Pv (GMember (Some (MKey (MKValue v) c)) t).
Hypothesis h_mkey : forall k c t, P1 k -> Forall P1 t -> Pv (GMember (Some (MKey (MKType1 k) c)) t).
Hypothesis h_gname : forall s, Pv (GGroupname s).
Hypothesis h_gparen : forall g, Forall (Forall Pe) g -> Pv (GParen g).

Definition all_of {A} (P : A -> Prop) (f : forall x, P x) : forall l, Forall P l :=
  fix go l := match l return Forall P l with
              | [] => Forall_nil _
              | x :: l' => Forall_cons _ (f x) (go l')
              end.

Fixpoint ind2 (t : type2) : P2 t :=
  match t with
  | T2Value v => h_value v
  | T2Typename n a => h_name n a (all_of P1 ind1 a)
  | T2Paren t => h_paren t (all_of P1 ind1 t)
  | T2Map g => h_map g (all_of (Forall Pe) (all_of Pe inde) g)
  | T2Array g => h_array g (all_of (Forall Pe) (all_of Pe inde) g)
  | T2Unwrap n a => h_unwrap n a (all_of P1 ind1 a)
  | T2ChoiceifyInline g => h_chin g (all_of (Forall Pe) (all_of Pe inde) g)
  | T2Choiceify n a => h_ch n a (all_of P1 ind1 a)
  end
with ind1 (t : type1) : P1 t :=
  match t with
  | T1Simple t => h_simple t (ind2 t)
  | T1Range s e i => h_range s e i (ind2 s) (ind2 e)
  | T1Control t a o => h_control t a o (ind2 t) (ind2 a)
  end
with inde (g : grpent) : Pe g :=
  match g with GrpEnt o v => h_ent o v (indv v) end
with indv (v : grpent_val) : Pv v :=
  match v with
  | GMember None t => h_mtype t (all_of P1 ind1 t)
  | GMember (Some (MKey (MKBareword s) c)) t => h_mbare s c t (all_of P1 ind1 t)
  | GMember (Some (MKey (MKValue v) c)) t => h_mval v c t (all_of P1 ind1 t)
  | GMember (Some (MKey (MKType1 k) c)) t => h_mkey k c t (ind1 k) (all_of P1 ind1 t)
  | GGroupname s => h_gname s
  | GParen g => h_gparen g (all_of (Forall Pe) (all_of Pe inde) g)
  end.
Lemma ast_ind : (forall t, P2 t) /\ (forall t, P1 t) /\ (forall g, Pe g) /\ (forall v, Pv v).
Proof. exact (conj ind2 (conj ind1 (conj inde indv))). Qed.
End AstInd.

(** * Names *)

Lemma one_of_user name l :
  user_name name -> incl (map txt l) (map (fun e => txt (fst e)) prelude_table) -> one_of name l = false.
Proof.
  intros U I. unfold one_of. apply not_true_is_false. intros H. apply existsb_exists in H.
  destruct H as (s & Hin & E). apply text_eqb_eq in E. apply U. apply I. rewrite <- E. apply in_map. auto.
Qed.

Lemma incl_dec_ok (l l' : list text) : forallb (fun x => existsb (text_eqb x) l') l = true -> incl l l'.
Proof.
  intros H x Hx. rewrite forallb_forall in H. apply H in Hx. apply existsb_exists in Hx.
  destruct Hx as (y & Hy & E). apply text_eqb_eq in E. congruence.
Qed.

Lemma typename_user name : user_name name -> flatten_typename name = Ok (NRule name []).
Proof.
  intros U. unfold flatten_typename.
  repeat (rewrite one_of_user; [|exact U|apply incl_dec_ok; vm_compute; reflexivity]). reflexivity.
Qed.

Definition unsupported_msg (name : text) : text := txt "prelude type '" ++ name ++ txt "'".
Lemma typename_table s r : In (s, r) prelude_table ->
  flatten_typename (txt s) = match r with Some nd => Ok nd | None => Err (EUnsupported (unsupported_msg (txt s))) end.
Proof.
  intros H. assert (F : Forall (fun e => flatten_typename (txt (fst e)) =
      match snd e with Some nd => Ok nd | None => Err (EUnsupported (unsupported_msg (txt (fst e)))) end) prelude_table).
  { unfold prelude_table. repeat constructor. }
  rewrite Forall_forall in F. apply (F _ H).
Qed.

Lemma name_cases name : user_name name \/ exists s r, In (s, r) prelude_table /\ name = txt s.
Proof.
  destruct (in_dec (list_eq_dec N.eq_dec) name (map (fun e => txt (fst e)) prelude_table)) as [H|H]; [right|left; auto].
  apply in_map_iff in H. destruct H as ([s r] & <- & H). eauto.
Qed.

Lemma table_user s r : In (s, r) prelude_table -> ~ user_name (txt s).
Proof. intros H U. apply U. apply in_map_iff. exists (s, r). auto. Qed.

(** The table is a function. *)
Lemma txt_inj s s' : txt s = txt s' -> s = s'.
Proof.
  unfold txt. revert s'. induction s as [|a s IH]; intros [|a' s']; cbn; try discriminate; auto.
  intros E. injection E as E1 E2. f_equal; auto. 
  apply (f_equal Ascii.ascii_of_N) in E1. rewrite !Ascii.ascii_N_embedding in E1. auto.
Qed.
Lemma table_fun s r r' : In (s, r) prelude_table -> In (s, r') prelude_table -> r = r'.
Proof.
  intros H H'. apply typename_table in H, H'. rewrite H in H'.
  destruct r, r'; congruence.
Qed.

Lemma typename_ok name nd : flatten_typename name = Ok nd <->
  (exists s, name = txt s /\ In (s, Some nd) prelude_table) \/ (user_name name /\ nd = NRule name []).
Proof.
  split.
  - intros E. destruct (name_cases name) as [U|(s & r & H & ->)].
    + rewrite typename_user in E by auto. right. split; auto. congruence.
    + left. rewrite (typename_table _ _ H) in E. destruct r; [|discriminate]. injection E as ->. eauto.
  - intros [(s & -> & H)|[U ->]]; [apply (typename_table _ _ H)|apply typename_user; auto].
Qed.

(** No entry of the table is a rule or any other composite node. *)
Lemma table_shape s nd : In (s, Some nd) prelude_table ->
  (exists p, nd = NPrelude p) \/ (exists b, nd = NLiteral (LBool b) /\ In s ["true"; "false"]%string).
Proof.
  intros H. assert (F : Forall (fun e => match snd e with
      | Some nd => (exists p, nd = NPrelude p) \/ (exists b, nd = NLiteral (LBool b) /\ In (fst e) ["true"; "false"]%string)
      | None => True end) prelude_table).
  { unfold prelude_table. repeat (constructor; [cbn; eauto 6|]). constructor. }
  rewrite Forall_forall in F. apply (F _ H).
Qed.
Lemma table_bool s : In s ["true"; "false"]%string -> exists b, In (s, Some (NLiteral (LBool b))) prelude_table.
Proof. intros [<-|[<-|[]]]; [exists true|exists false]; cbn; auto 10. Qed.

(** * Generic lists *)

Lemma collect_means {A B} (f : A -> res B) (R : A -> B -> Prop) l :
  Forall (fun x => forall y, f x = Ok y <-> R x y) l -> forall ys, collect_res f l = Ok ys <-> Forall2 R l ys.
Proof.
  intros H ys. rewrite collect_ok. split; intros F; induction F; auto; apply Forall_cons_iff in H;
    destruct H as [Hx H]; constructor; auto; apply Hx; auto.
Qed.

Section WithX.
Variable X : ext.
Notation rx := (regex_compiles X).
Notation ft1 := (flatten_type1 X).

(** Unfolding equations. *)
Lemma ft2_eq t : flatten_type2 X t =
  match t with
  | T2Value v => flatten_value v
  | T2Typename name args => flatten_name_generic_with (flatten_type1 X) name args
  | T2Paren t => flatten_type_with (flatten_type1 X) t
  | T2Map g => bind_res (flatten_group_with (flatten_grpent X) g) (fun l => Ok (NMap l))
  | T2Array g => bind_res (flatten_group_with (flatten_grpent X) g) (fun l => Ok (NArray l))
  | T2Unwrap name args =>
      bind_res (flatten_rule_generic_with (flatten_type1 X) name args)
        (fun r => Ok (NUnwrap (fst r) (snd r)))
  | T2ChoiceifyInline g => bind_res (flatten_group_with (flatten_grpent X) g) (fun l => Ok (NChoiceifyInline l))
  | T2Choiceify name args =>
      bind_res (flatten_rule_generic_with (flatten_type1 X) name args)
        (fun r => Ok (NChoiceify (fst r) (snd r)))
  end.
Proof. destruct t; reflexivity. Qed.
Lemma ft1_eq t : flatten_type1 X t =
  match t with
  | T1Simple t2 => (flatten_type2 X) t2
  | T1Range s e incl =>
      bind_res (range_point_with (flatten_type1 X) s) (fun s' =>
        bind_res (range_point_with (flatten_type1 X) e) (fun e' => Ok (NRange s' e' incl)))
  | T1Control target arg op => flatten_control_with X (flatten_type2 X) target arg op
  end.
Proof. destruct t; reflexivity. Qed.
Lemma fte_eq g : flatten_grpent X g =
  match g with
  | GrpEnt o v => bind_res ((flatten_grpent_val X) v) (fun nd => Ok (occur_wrap o nd))
  end.
Proof. destruct g; reflexivity. Qed.
Lemma fmk_eq k : flatten_memberkey X k =
  match k with
  | MKBareword s => Ok (NLiteral (LText s))
  | MKType1 t => flatten_type1 X t
  | MKValue v => flatten_value v
  end.
Proof. destruct k; reflexivity. Qed.
Lemma ftv_eq v : flatten_grpent_val X v =
  match v with
  | GMember (Some k) value =>
      match k with
      | MKey kv cut =>
          bind_res ((flatten_memberkey X) kv) (fun key =>
            bind_res (flatten_type_with (flatten_type1 X) value) (fun val =>
              Ok (NKeyValue key val cut)))
      end
  | GMember None value => flatten_type_with (flatten_type1 X) value
  | GGroupname s => flatten_typename s
  | GParen g => bind_res (flatten_group_with (flatten_grpent X) g) (fun l => Ok (NGroup l))
  end.
Proof. destruct v; reflexivity. Qed.

Lemma name_generic_ok (f : type1 -> res node) (R : type1 -> node -> Prop) name args nd :
  (forall ys, collect_res f args = Ok ys <-> Forall2 R args ys) ->
  (flatten_name_generic_with f name args = Ok nd <->
   (exists s, name = txt s /\ args = [] /\ In (s, Some nd) prelude_table) \/
   (exists args', user_name name /\ Forall2 R args args' /\ nd = NRule name args')).
Proof.
  intros HC. unfold flatten_name_generic_with. destruct (name_cases name) as [U|(s & r & H & ->)].
  - rewrite typename_user by auto. cbn [bind_res]. split.
    + intros E. right. destruct (collect_res f args) as [l|e|] eqn:C; try discriminate.
      injection E as <-. exists l. rewrite <- HC. auto.
    + intros [(s & -> & _ & H)|(args' & _ & F & ->)]; [exfalso; eapply table_user; eauto|].
      apply HC in F. rewrite F. reflexivity.
  - rewrite (typename_table _ _ H). split.
    + intros E. left. exists s. split; auto. destruct r as [nd'|]; [|discriminate]. cbn [bind_res] in E.
      destruct (table_shape _ _ H) as [(p & ->)|(b & -> & _)]; destruct args; try discriminate;
        injection E as <-; auto.
    + intros [(s' & E & -> & H')|(args' & U & _)]; [|exfalso; eapply table_user; eauto].
      apply txt_inj in E; subst s'. rewrite (table_fun _ _ _ H H'). cbn [bind_res].
      destruct (table_shape _ _ H') as [(p & ->)|(b & -> & _)]; reflexivity.
Qed.

Lemma rule_generic_ok (f : type1 -> res node) (R : type1 -> node -> Prop) name args n l :
  (forall ys, collect_res f args = Ok ys <-> Forall2 R args ys) ->
  (flatten_rule_generic_with f name args = Ok (n, l) <-> user_name name /\ n = name /\ Forall2 R args l).
Proof.
  intros HC. unfold flatten_rule_generic_with. split.
  - destruct (flatten_name_generic_with f name args) as [nd|e|] eqn:E; try discriminate.
    apply (name_generic_ok _ _ _ _ _ HC) in E. destruct E as [(s & -> & -> & H)|(args' & U & F & ->)].
    + destruct (table_shape _ _ H) as [(p & ->)|(b & -> & _)]; discriminate.
    + intros [= <- <-]. auto.
  - intros (U & -> & F). assert (E : flatten_name_generic_with f name args = Ok (NRule name l)).
    { apply (name_generic_ok _ _ _ _ _ HC). right. eauto. }
    rewrite E. reflexivity.
Qed.

Lemma type_ok (R : type1 -> node -> Prop) (f : type1 -> res node) t nd :
  (forall ys, collect_res f t = Ok ys <-> Forall2 R t ys) ->
  (flatten_type_with f t = Ok nd <->
   exists ns, Forall2 R t ns /\ (ns = [nd] \/ (exists a b l, ns = a :: b :: l) /\ nd = NChoice ns)).
Proof.
  intros HC. unfold flatten_type_with. split.
  - destruct (collect_res f t) as [ns|e|] eqn:E; try discriminate. cbn [bind_res]. intros H. exists ns.
    split; [apply HC; auto|]. destruct ns as [|a [|b l]]; try discriminate; injection H as <-; eauto 10.
  - intros (ns & F & H). apply HC in F. rewrite F. cbn [bind_res].
    destruct H as [->|[(a & b & l & ->) ->]]; reflexivity.
Qed.

Lemma means_type_list t nd : means_type rx t nd <->
  exists ns, Forall2 (means1 rx) t ns /\ (ns = [nd] \/ (exists a b l, ns = a :: b :: l) /\ nd = NChoice ns).
Proof.
  split.
  - destruct 1; [eauto|]. exists (n1 :: n2 :: ns). split; [auto|]. right. eauto.
  - intros (ns & F & [->|[(a & b & l & ->) ->]]).
    + inversion F; subst. inversion H3; subst. constructor; auto.
    + inversion F; subst. inversion H3; subst. constructor; auto.
Qed.

Lemma group_ok (R : grpent -> node -> Prop) (f : grpent -> res node) g ms :
  Forall (fun gc => forall ys, collect_res f gc = Ok ys <-> Forall2 R gc ys) g ->
  (flatten_group_with f g = Ok ms <->
   (exists es, g = [es] /\ Forall2 R es ms) \/
   (exists os, List.length g <> 1 /\ Forall2 (fun gc nd => exists l, nd = NGroup l /\ Forall2 R gc l) g os /\ ms = [NChoice os])).
Proof.
  intros HC.
  assert (HG : forall os, collect_res (fun gc => bind_res (collect_res f gc) (fun members => Ok (NGroup members))) g = Ok os
     <-> Forall2 (fun gc nd => exists l, nd = NGroup l /\ Forall2 R gc l) g os).
  { apply collect_means. eapply Forall_impl; [|exact HC]. cbn beta. intros gc H y. split.
    - destruct (collect_res f gc) as [l|e|] eqn:E; try discriminate. cbn [bind_res]. intros [= <-].
      exists l. split; auto. apply H; auto.
    - intros (l & -> & F). apply H in F. rewrite F. reflexivity. }
  unfold flatten_group_with. destruct g as [|gc [|gc' g']].
  - split; [|intros [(es & [=] & _)|(os & _ & F & ->)]; inversion F; reflexivity].
    cbn. intros [= <-]. right. exists []. auto.
  - inversion HC; subst. rewrite H1. split; [eauto|].
    intros [(es & [= ->] & F)|(os & N & _)]; auto. cbn in N. lia.
  - split.
    + match goal with |- bind_res ?x _ = _ -> _ => destruct x as [os|e|] eqn:E end; try discriminate.
      cbn [bind_res]. intros [= <-]. right. exists os. split; [cbn; lia|]. split; auto. apply HG; auto.
    + intros [(es & [=] & _)|(os & _ & F & ->)]. apply HG in F. rewrite F. reflexivity.
Qed.

Lemma means_group_list g ms : means_group rx g ms <->
   (exists es, g = [es] /\ Forall2 (means_entry rx) es ms) \/
   (exists os, List.length g <> 1 /\
      Forall2 (fun gc nd => exists l, nd = NGroup l /\ Forall2 (means_entry rx) gc l) g os /\ ms = [NChoice os]).
Proof.
  split.
  - destruct 1 as [es ms H|g os N H]; [eauto|]. right. exists os. repeat split; auto.
    clear N. induction H as [|gc nd g os H F IH]; constructor; auto. destruct H; eauto.
  - intros [(es & -> & F)|(os & N & F & ->)]; constructor; auto.
    clear N. induction F as [|gc nd g os (l & -> & H) F IH]; constructor; auto. constructor; auto.
Qed.

Lemma control_ok op :
  (exists k, (forall f target arg, flatten_control_with X f target arg op =
      bind_res (f target) (fun t => bind_res (f arg) (fun a => bind_res (k t a) (fun c => Ok (NControl c)))))
    /\ (forall t a c, k t a = Ok c <-> exists s, op = txt s /\ control_of rx s t a c))
  \/ ((forall f target arg, flatten_control_with X f target arg op = Err (EUnsupported (txt "control operator")))
      /\ forall t a c s, op = txt s -> ~ control_of rx s t a c).
Proof.
  unfold flatten_control_with.
  assert (HL : forall mk s msg, (forall t a c', control_of rx s t a c' -> is_limit a /\ c' = mk t a) ->
     (forall t a, is_limit a -> control_of rx s t a (mk t a)) ->
     forall t a c, (control_compare mk msg t a = Ok c <-> exists s', txt s = txt s' /\ control_of rx s' t a c)).
  { intros mk s msg H1 H2 t a c. unfold control_compare. split.
    - intros E. exists s. split; auto. destruct a as [[]| | | | | | | | | | | | | ]; try discriminate; injection E as <-;
        apply H2; unfold is_limit; eauto.
    - intros (s' & E & H). apply txt_inj in E; subst s'. destruct (H1 _ _ _ H) as [L ->].
      destruct L as [(z & ->)|(n & l & ->)]; reflexivity. }
  destruct (text_eqb op (txt "size")) eqn:E1.
  { apply text_eqb_eq in E1. subst. left. eexists; split; [reflexivity|]. intros t a c. unfold control_size. split.
    - intros E. exists "size"%string. split; auto.
      destruct a as [[]| | | | | | | | | | | | | ]; try discriminate; injection E as <-; constructor; unfold is_limit; eauto 10.
    - intros (s & Es & H). apply txt_inj in Es; subst s. inversion H; subst.
      match goal with H : is_limit _ \/ _ |- _ => destruct H as [[(z & ->)|(n & l & ->)]|(x & y & i & ->)] end; reflexivity. }
  destruct (text_eqb op (txt "lt")) eqn:E2.
  { apply text_eqb_eq in E2. subst. left. eexists; split; [reflexivity|]. apply HL; [|constructor; auto].
    intros t a c' H. inversion H; auto. }
  destruct (text_eqb op (txt "le")) eqn:E3.
  { apply text_eqb_eq in E3. subst. left. eexists; split; [reflexivity|]. apply HL; [|constructor; auto].
    intros t a c' H. inversion H; auto. }
  destruct (text_eqb op (txt "gt")) eqn:E4.
  { apply text_eqb_eq in E4. subst. left. eexists; split; [reflexivity|]. apply HL; [|constructor; auto].
    intros t a c' H. inversion H; auto. }
  destruct (text_eqb op (txt "ge")) eqn:E5.
  { apply text_eqb_eq in E5. subst. left. eexists; split; [reflexivity|]. apply HL; [|constructor; auto].
    intros t a c' H. inversion H; auto. }
  destruct (text_eqb op (txt "regexp")) eqn:E6.
  { apply text_eqb_eq in E6. subst. left. eexists; split; [reflexivity|]. intros t a c. unfold control_regex. split.
    - intros E. exists "regexp"%string. split; auto. destruct t as [|[]| | | | | | | | | | | | ]; try discriminate.
      destruct a as [[]| | | | | | | | | | | | | ]; try discriminate.
      destruct (rx t) eqn:R; [|discriminate]. injection E as <-. constructor; auto.
    - intros (s & Es & H). apply txt_inj in Es; subst s. inversion H; subst.
      match goal with H : rx _ = true |- _ => rewrite H end. reflexivity. }
  destruct (text_eqb op (txt "cbor")) eqn:E7.
  { apply text_eqb_eq in E7. subst. left. eexists; split; [reflexivity|]. intros t a c. unfold control_cbor. split.
    - intros E. exists "cbor"%string. split; auto. destruct t as [|[]| | | | | | | | | | | | ]; try discriminate.
      injection E as <-. constructor; auto.
    - intros (s & Es & H). apply txt_inj in Es; subst s. inversion H; subst. reflexivity. }
  right. split; [reflexivity|]. intros t a c s -> H.
  inversion H; subst; rewrite text_eqb_refl in *; discriminate.
Qed.

(** * The conversion computes the relation *)

Lemma value_ok v nd : flatten_value v = Ok nd <-> nd = NLiteral (literal_of v).
Proof. destruct v; cbn; split; congruence. Qed.

Lemma flatten_exact' :
  (forall t, (forall nd, flatten_type2 X t = Ok nd <-> means2 rx t nd) /\
             (forall nd, range_point_with (flatten_type1 X) t = Ok nd <-> means_point rx t nd)) /\
  (forall t nd, flatten_type1 X t = Ok nd <-> means1 rx t nd) /\
  (forall g nd, flatten_grpent X g = Ok nd <-> means_entry rx g nd) /\
  (forall v nd, flatten_grpent_val X v = Ok nd <-> means_entry_val rx v nd).
Proof.
  assert (NP : forall t, match t with T2Value _ | T2Typename _ _ => False | _ => True end ->
     forall nd, range_point_with (flatten_type1 X) t = Ok nd <-> means_point rx t nd).
  { intros t Ht nd. destruct t; try contradiction; (split; [discriminate|intros H; inversion H]). }
  assert (G : forall g, Forall (Forall (fun g => forall nd, flatten_grpent X g = Ok nd <-> means_entry rx g nd)) g ->
     forall ms, flatten_group_with (flatten_grpent X) g = Ok ms <-> means_group rx g ms).
  { intros g Hg ms. rewrite means_group_list. apply group_ok. eapply Forall_impl; [|exact Hg].
    intros gc Hgc. apply collect_means. exact Hgc. }
  assert (T : forall t, Forall (fun t => forall nd, flatten_type1 X t = Ok nd <-> means1 rx t nd) t ->
     forall nd, flatten_type_with (flatten_type1 X) t = Ok nd <-> means_type rx t nd).
  { intros t Ht nd. rewrite means_type_list. apply type_ok. apply collect_means. exact Ht. }
  assert (GN : forall (mk : list node -> node) (C : list (list grpent) -> type2) g,
     (forall l l', mk l = mk l' -> l = l') ->
     (forall nd, means2 rx (C g) nd <-> exists ms, nd = mk ms /\ means_group rx g ms) ->
     Forall (Forall (fun g => forall nd, flatten_grpent X g = Ok nd <-> means_entry rx g nd)) g ->
     forall nd, bind_res (flatten_group_with (flatten_grpent X) g) (fun l => Ok (mk l)) = Ok nd <-> means2 rx (C g) nd).
  { intros mk C g inj HC Hg nd. rewrite HC. split.
    - destruct (flatten_group_with (flatten_grpent X) g) as [ms|e|] eqn:E; try discriminate.
      intros [= <-]. exists ms. split; auto. apply G; auto.
    - intros (ms & -> & H). apply G in H; auto. rewrite H. reflexivity. }
  apply ast_ind.
  - (* value *) intros v. split; intros nd.
    + rewrite ?ft2_eq. rewrite value_ok. split; [intros ->; constructor|intros H; inversion H; auto].
    + unfold range_point_with. split.
      * destruct (flatten_value v) as [nd'|e|] eqn:E; try discriminate. apply value_ok in E. subst.
        intros [= <-]. constructor.
      * intros H; inversion H; subst. destruct v; reflexivity.
  - (* name *) intros name args Hargs.
    assert (HC : forall ys, collect_res (flatten_type1 X) args = Ok ys <-> Forall2 (means1 rx) args ys)
      by (apply collect_means; auto).
    split; intros nd.
    + rewrite ?ft2_eq. rewrite (name_generic_ok _ _ _ _ _ HC). split.
      * intros [(s & -> & -> & H)|(args' & U & F & ->)]; [constructor; auto|constructor; auto].
      * intros H; inversion H; subst; eauto 10.
    + unfold range_point_with. split.
      * destruct (flatten_name_generic_with (flatten_type1 X) name args) as [nd'|e|] eqn:E; try discriminate.
        apply (name_generic_ok _ _ _ _ _ HC) in E. cbn [bind_res].
        destruct E as [(s & -> & -> & H)|(args' & U & F & ->)].
        -- destruct (table_shape _ _ H) as [(p & ->)|(b & -> & _)]; intros [= <-]. constructor; auto.
        -- intros [= <-]. constructor; auto.
      * intros H.
        assert (E : flatten_name_generic_with (flatten_type1 X) name args = Ok nd).
        { apply (name_generic_ok _ _ _ _ _ HC). inversion H; subst; eauto 10. }
        rewrite E. inversion H; subst; reflexivity.
  - (* paren *) intros t Ht. split; [|apply NP; auto]. intros nd. rewrite ?ft2_eq. rewrite T by auto.
    split; [constructor; auto|intros H; inversion H; auto].
  - intros g Hg. split; [|apply NP; auto]. intros nd; rewrite ft2_eq; revert nd. apply (GN NMap T2Map); auto; [congruence|].
    intros nd; split; [intros H; inversion H; eauto|intros (ms & -> & H); constructor; auto].
  - intros g Hg. split; [|apply NP; auto]. intros nd; rewrite ft2_eq; revert nd. apply (GN NArray T2Array); auto; [congruence|].
    intros nd; split; [intros H; inversion H; eauto|intros (ms & -> & H); constructor; auto].
  - intros name args Hargs. split; [|apply NP; auto]. intros nd. rewrite ?ft2_eq.
    assert (HC : forall ys, collect_res (flatten_type1 X) args = Ok ys <-> Forall2 (means1 rx) args ys)
      by (apply collect_means; auto).
    split.
    + destruct (flatten_rule_generic_with (flatten_type1 X) name args) as [[n l]|e|] eqn:E; try discriminate.
      apply (rule_generic_ok _ _ _ _ _ _ HC) in E. destruct E as (U & -> & F). cbn [bind_res fst snd]. intros [= <-]. constructor; auto.
    + intros H; inversion H; subst.
      assert (E : flatten_rule_generic_with (flatten_type1 X) name args = Ok (name, args')).
      { apply (rule_generic_ok _ _ _ _ _ _ HC). auto. }
      rewrite E. reflexivity.
  - intros g Hg. split; [|apply NP; auto]. intros nd; rewrite ft2_eq; revert nd.
    apply (GN NChoiceifyInline T2ChoiceifyInline); auto; [congruence|].
    intros nd; split; [intros H; inversion H; eauto|intros (ms & -> & H); constructor; auto].
  - intros name args Hargs. split; [|apply NP; auto]. intros nd. rewrite ?ft2_eq.
    assert (HC : forall ys, collect_res (flatten_type1 X) args = Ok ys <-> Forall2 (means1 rx) args ys)
      by (apply collect_means; auto).
    split.
    + destruct (flatten_rule_generic_with (flatten_type1 X) name args) as [[n l]|e|] eqn:E; try discriminate.
      apply (rule_generic_ok _ _ _ _ _ _ HC) in E. destruct E as (U & -> & F). cbn [bind_res fst snd]. intros [= <-]. constructor; auto.
    + intros H; inversion H; subst.
      assert (E : flatten_rule_generic_with (flatten_type1 X) name args = Ok (name, args')).
      { apply (rule_generic_ok _ _ _ _ _ _ HC). auto. }
      rewrite E. reflexivity.
  - (* simple *) intros t [H _] nd. rewrite ?ft1_eq. rewrite H. split; [constructor; auto|intros M; inversion M; auto].
  - (* range *) intros s e i [_ Hs] [_ He] nd. rewrite ?ft1_eq. split.
    + destruct (range_point_with (flatten_type1 X) s) as [s'| |] eqn:Es; try discriminate.
      destruct (range_point_with (flatten_type1 X) e) as [e'| |] eqn:Ee; try discriminate.
      cbn [bind_res]. intros [= <-]. constructor; [apply Hs|apply He]; auto.
    + intros M; inversion M; subst.
      match goal with H : means_point _ s _ |- _ => apply Hs in H; rewrite H end. cbn [bind_res].
      match goal with H : means_point _ e _ |- _ => apply He in H; rewrite H end. reflexivity.
  - (* control *) intros target arg op [Ht _] [Ha _] nd. rewrite ?ft1_eq.
    destruct (control_ok op) as [(k & Hk & Hc)|[Hk Hc]]; rewrite Hk.
    + split.
      * destruct (flatten_type2 X target) as [t| |] eqn:Et; try discriminate. cbn [bind_res].
        destruct (flatten_type2 X arg) as [a| |] eqn:Ea; try discriminate. cbn [bind_res].
        destruct (k t a) as [c| |] eqn:Ek; try discriminate. intros [= <-].
        apply Hc in Ek. destruct Ek as (s & -> & Ek). econstructor; [apply Ht; auto|apply Ha; auto|auto].
      * intros M; inversion M; subst. 
        match goal with H : means2 _ target _ |- _ => apply Ht in H; rewrite H end. cbn [bind_res].
        match goal with H : means2 _ arg _ |- _ => apply Ha in H; rewrite H end. cbn [bind_res].
        assert (E : k t a = Ok c) by (apply Hc; eauto). rewrite E. reflexivity.
    + split; [discriminate|]. intros M; inversion M; subst. exfalso. eapply Hc; eauto.
  - intros o v Hv nd. rewrite ?fte_eq. split.
    + destruct (flatten_grpent_val X v) as [nd'| |] eqn:E; try discriminate. intros [= <-].
      destruct o; constructor; apply Hv; auto.
    + intros M; inversion M; subst; match goal with H : means_entry_val _ _ _ |- _ => apply Hv in H; rewrite H end; reflexivity.
  - intros t Ht nd. rewrite ?ftv_eq. rewrite T by auto. split; [constructor; auto|intros M; inversion M; auto].
  - intros s c t Ht nd. rewrite ?ftv_eq; rewrite ?fmk_eq; cbn [bind_res]. split.
    + destruct (flatten_type_with (flatten_type1 X) t) as [nd'| |] eqn:E; try discriminate. intros [= <-].
      apply T in E; auto. constructor; auto.
    + intros M; inversion M; subst. match goal with H : means_type _ _ _ |- _ => apply T in H; auto; rewrite H end. reflexivity.
  - intros v c t Ht nd. rewrite ?ftv_eq; rewrite ?fmk_eq. split.
    + destruct (flatten_value v) as [k| |] eqn:Ev; try discriminate. apply value_ok in Ev; subst. cbn [bind_res].
      destruct (flatten_type_with (flatten_type1 X) t) as [nd'| |] eqn:E; try discriminate. intros [= <-].
      apply T in E; auto. constructor; auto.
    + intros M; inversion M; subst. rewrite (proj2 (value_ok v _) eq_refl). cbn [bind_res].
      match goal with H : means_type _ _ _ |- _ => apply T in H; auto; rewrite H end. reflexivity.
  - intros k c t Hk Ht nd. rewrite ?ftv_eq; rewrite ?fmk_eq. split.
    + destruct (flatten_type1 X k) as [kd| |] eqn:Ek; try discriminate. cbn [bind_res].
      destruct (flatten_type_with (flatten_type1 X) t) as [nd'| |] eqn:E; try discriminate. intros [= <-].
      apply T in E; auto. constructor; auto. apply Hk; auto.
    + intros M; inversion M; subst. match goal with H : means1 _ _ _ |- _ => apply Hk in H; auto; rewrite H end.
      cbn [bind_res]. match goal with H : means_type _ _ _ |- _ => apply T in H; auto; rewrite H end. reflexivity.
  - intros s nd. rewrite ?ftv_eq. rewrite typename_ok. split.
    + intros [(s' & -> & H)|[U ->]]; constructor; auto.
    + intros M; inversion M; subst; eauto.
  - intros g Hg nd. rewrite ?ftv_eq. split.
    + destruct (flatten_group_with (flatten_grpent X) g) as [ms| |] eqn:E; try discriminate. intros [= <-].
      apply G in E; auto. constructor; auto.
    + intros M; inversion M; subst. match goal with H : means_group _ _ _ |- _ => apply G in H; auto; rewrite H end. reflexivity.
Qed.

Lemma flatten2_exact t nd : flatten_type2 X t = Ok nd <-> means2 rx t nd.
Proof. apply flatten_exact'. Qed.
Lemma flatten1_exact t nd : flatten_type1 X t = Ok nd <-> means1 rx t nd.
Proof. apply flatten_exact'. Qed.
Lemma flatten_entry_exact g nd : flatten_grpent X g = Ok nd <-> means_entry rx g nd.
Proof. apply flatten_exact'. Qed.
Lemma flatten_type_exact t nd : flatten_type X t = Ok nd <-> means_type rx t nd.
Proof.
  rewrite means_type_list. apply type_ok. apply collect_means. apply Forall_all. apply flatten1_exact.
Qed.
Lemma flatten_group_exact g ms : flatten_group X g = Ok ms <-> means_group rx g ms.
Proof.
  rewrite means_group_list. apply group_ok. apply Forall_all. intros gc. apply collect_means.
  apply Forall_all. apply flatten_entry_exact.
Qed.
Lemma flatten_rule_exact r name def : flatten_rule X r = Ok (name, def) <-> name = r_name r /\ means_rule rx r def.
Proof.
  destruct r as [n parms val]. unfold flatten_rule. cbn [r_val r_name r_parms].
  destruct val as [t|g].
  - split.
    + destruct (flatten_type X t) as [nd| |] eqn:E; try discriminate. intros [= <- <-]. split; auto.
      constructor. apply flatten_type_exact; auto.
    + intros [-> M]. inversion M; subst. match goal with H : means_type _ _ _ |- _ => apply flatten_type_exact in H; rewrite H end.
      reflexivity.
  - split.
    + destruct (flatten_grpent X g) as [nd| |] eqn:E; try discriminate. intros [= <- <-]. split; auto.
      constructor. apply flatten_entry_exact; auto.
    + intros [-> M]. inversion M; subst. match goal with H : means_entry _ _ _ |- _ => apply flatten_entry_exact in H; rewrite H end.
      reflexivity.
Qed.

(** * Errors *)

Definition flat_error (e : verror) : Prop :=
  (exists m, e = EUnsupported m) \/ (exists m, e = EStructural m) \/ e = EGenericError.
Definition fine {A} (r : res A) : Prop :=
  match r with Ok _ => True | Err e => flat_error e | Panic => False end.

Lemma fine_bind {A B} (r : res A) (f : A -> res B) : fine r -> (forall a, fine (f a)) -> fine (bind_res r f).
Proof. destruct r; cbn; auto. Qed.
Lemma fine_ok {A} (a : A) : fine (Ok a). Proof. exact I. Qed.
Lemma fine_uns {A} m : fine (@Err A (EUnsupported m)). Proof. left; eauto. Qed.
Lemma fine_str {A} m : fine (@Err A (EStructural m)). Proof. right; left; eauto. Qed.
Lemma fine_gen {A} : fine (@Err A EGenericError). Proof. right; right; reflexivity. Qed.
Hint Resolve fine_bind fine_ok fine_uns fine_str fine_gen : fine.

Lemma fine_collect {A B} (f : A -> res B) l : Forall (fun x => fine (f x)) l -> fine (collect_res f l).
Proof.
  induction 1 as [|x l Hx Hl IH]; cbn; auto. destruct (f x); cbn in *; auto.
  destruct (collect_res f l); cbn in *; auto.
Qed.
Lemma fine_typename name : fine (flatten_typename name).
Proof.
  destruct (name_cases name) as [U|(s & r & H & ->)]; [rewrite typename_user by auto; apply fine_ok|].
  rewrite (typename_table _ _ H). destruct r; auto with fine.
Qed.
Lemma fine_name (f : type1 -> res node) name args :
  Forall (fun x => fine (f x)) args -> fine (flatten_name_generic_with f name args).
Proof.
  intros H. apply fine_bind; [apply fine_typename|]. intros nd.
  assert (fine (collect_res f args)) by (apply fine_collect; auto).
  destruct nd; auto with fine; destruct args; auto with fine.
Qed.
Lemma fine_rule (f : type1 -> res node) name args :
  Forall (fun x => fine (f x)) args -> fine (flatten_rule_generic_with f name args).
Proof.
  intros H. unfold flatten_rule_generic_with. pose proof (fine_name f name args H) as F.
  destruct (flatten_name_generic_with f name args) as [[]| |]; auto with fine.
Qed.
Lemma fine_type (f : type1 -> res node) t : Forall (fun x => fine (f x)) t -> fine (flatten_type_with f t).
Proof.
  intros H. apply fine_bind; [apply fine_collect; auto|]. intros [|a [|b l]]; auto with fine.
Qed.
Lemma fine_group (f : grpent -> res node) g :
  Forall (Forall (fun x => fine (f x))) g -> fine (flatten_group_with f g).
Proof.
  intros H. unfold flatten_group_with.
  assert (fine (collect_res (fun gc => bind_res (collect_res f gc) (fun members => Ok (NGroup members))) g)).
  { apply fine_collect. eapply Forall_impl; [|exact H]. intros gc Hgc. apply fine_bind; auto with fine.
    apply fine_collect; auto. }
  destruct g as [|gc [|gc' g]]; try (apply fine_bind; auto with fine; fail).
  apply fine_collect. inversion H; auto.
Qed.
Lemma fine_control (f : type2 -> res node) target arg op :
  fine (f target) -> fine (f arg) -> fine (flatten_control_with X f target arg op).
Proof.
  intros Ht Ha. unfold flatten_control_with.
  repeat match goal with |- context [text_eqb op ?x] => destruct (text_eqb op x) end;
    auto with fine; (apply fine_bind; [auto|]; intros t; apply fine_bind; [auto|]; intros a; apply fine_bind; auto with fine).
  - unfold control_size. destruct a as [[]| | | | | | | | | | | | | ]; auto with fine.
  - unfold control_compare. destruct a as [[]| | | | | | | | | | | | | ]; auto with fine.
  - unfold control_compare. destruct a as [[]| | | | | | | | | | | | | ]; auto with fine.
  - unfold control_compare. destruct a as [[]| | | | | | | | | | | | | ]; auto with fine.
  - unfold control_compare. destruct a as [[]| | | | | | | | | | | | | ]; auto with fine.
  - unfold control_regex. destruct t as [|[]| | | | | | | | | | | | ]; auto with fine.
    destruct a as [[]| | | | | | | | | | | | | ]; auto with fine. destruct (rx t); auto with fine.
  - unfold control_cbor. destruct t as [|[]| | | | | | | | | | | | ]; auto with fine.
Qed.
Lemma fine_value v : fine (flatten_value v).
Proof. destruct v; exact I. Qed.

Lemma flatten_fine :
  (forall t, fine (flatten_type2 X t) /\ fine (range_point_with (flatten_type1 X) t)) /\
  (forall t, fine (flatten_type1 X t)) /\
  (forall g, fine (flatten_grpent X g)) /\
  (forall v, fine (flatten_grpent_val X v)).
Proof.
  assert (RP : forall r, fine r -> fine (bind_res r (fun nd => match nd with NRule _ _ | NLiteral _ => Ok nd
      | _ => Err (EStructural (txt "bad type on range operator")) end))).
  { intros r H. apply fine_bind; auto. intros []; auto with fine. }
  assert (NP : forall t, match t with T2Value _ | T2Typename _ _ => False | _ => True end ->
     fine (range_point_with (flatten_type1 X) t)).
  { intros [] H; try contradiction H; unfold range_point_with; cbn [bind_res]; auto with fine. }
  apply ast_ind.
  - intros v. split; [rewrite ft2_eq; apply fine_value|apply RP, fine_value].
  - intros n a H. split; [rewrite ft2_eq; apply fine_name; auto|apply RP, fine_name; auto].
  - intros t H. split; [rewrite ft2_eq; apply fine_type; auto|apply NP; exact I].
  - intros g H. split; [rewrite ft2_eq|apply NP; exact I]. apply fine_bind; [apply fine_group|]; auto with fine.
  - intros g H. split; [rewrite ft2_eq|apply NP; exact I]. apply fine_bind; [apply fine_group|]; auto with fine.
  - intros n a H. split; [rewrite ft2_eq|apply NP; exact I]. apply fine_bind; [apply fine_rule|]; auto with fine.
  - intros g H. split; [rewrite ft2_eq|apply NP; exact I]. apply fine_bind; [apply fine_group|]; auto with fine.
  - intros n a H. split; [rewrite ft2_eq|apply NP; exact I]. apply fine_bind; [apply fine_rule|]; auto with fine.
  - intros t [H _]. rewrite ft1_eq; auto.
  - intros s e i [_ Hs] [_ He]. rewrite ft1_eq. apply fine_bind; auto. intros s'. apply fine_bind; auto with fine.
  - intros t a o [Ht _] [Ha _]. rewrite ft1_eq. apply fine_control; auto.
  - intros o v H. rewrite fte_eq. apply fine_bind; auto with fine.
  - intros t H. rewrite ftv_eq. apply fine_type; auto.
  - intros s c t H. rewrite ftv_eq, fmk_eq. apply fine_bind; auto with fine. intros k. apply fine_bind; auto with fine.
    apply fine_type; auto.
  - intros v c t H. rewrite ftv_eq, fmk_eq. apply fine_bind; auto using fine_value. intros k. apply fine_bind; auto with fine.
    apply fine_type; auto.
  - intros k c t Hk H. rewrite ftv_eq, fmk_eq. apply fine_bind; auto. intros k'. apply fine_bind; auto with fine.
    apply fine_type; auto.
  - intros s. rewrite ftv_eq. apply fine_typename.
  - intros g H. rewrite ftv_eq. apply fine_bind; [apply fine_group|]; auto with fine.
Qed.
Lemma flatten_rule_fine r : fine (flatten_rule X r).
Proof.
  unfold flatten_rule. apply fine_bind; auto with fine. destruct (r_val r).
  - apply fine_type, Forall_all. apply flatten_fine.
  - apply flatten_fine.
Qed.
End WithX.
