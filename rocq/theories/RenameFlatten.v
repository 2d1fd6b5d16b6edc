(** Consistent renaming commutes with the conversion of syntax trees. *)
From Coq Require Import List Bool ZArith NArith String Lia Arith.
From Verif Require Import Base Util Data Value Convert Ivt Validate ValueOrder ConvertProofs Ast Flatten SpecCtx SpecFlatten FlattenProofs FlattenMap SpecRename.
Import ListNotations.
Open Scope list_scope.

Definition mapr {A B} (g : A -> B) (r : res A) : res B :=
  match r with Ok a => Ok (g a) | Err e => Err e | Panic => Panic end.
Lemma collect_ren {A A' B B'} (h : A -> A') (g : B -> B') (F : A -> res B) (F' : A' -> res B') l :
  Forall (fun x => F' (h x) = mapr g (F x)) l -> collect_res F' (map h l) = mapr (map g) (collect_res F l).
Proof.
  induction 1 as [|x l E _ IH]; [reflexivity|]. cbn [map]. change (collect_res F' (h x :: map h l)) with
    (match F' (h x) with Ok y => match collect_res F' (map h l) with Ok ys => Ok (y :: ys) | Err e => Err e | Panic => Panic end | Err e => Err e | Panic => Panic end).
  change (collect_res F (x :: l)) with
    (match F x with Ok y => match collect_res F l with Ok ys => Ok (y :: ys) | Err e => Err e | Panic => Panic end | Err e => Err e | Panic => Panic end).
  rewrite E, IH. destruct (F x); cbn; auto. destruct (collect_res F l); reflexivity.
Qed.
Lemma bind_ren {A A' B B'} (g : A -> A') (h : B -> B') (r : res A) (k : A -> res B) (k' : A' -> res B') :
  (forall a, r = Ok a -> k' (g a) = mapr h (k a)) -> bind_res (mapr g r) k' = mapr h (bind_res r k).
Proof. intros H. destruct r; cbn; auto. Qed.

Section WithF.
Variable X : ext.
Variable f : text -> text.
Notation ren := (ren_node f).
Notation kept l := (forall x, In x l -> keeps f x).

Lemma value_ren v : flatten_value v = mapr ren (flatten_value v). Proof. destruct v; reflexivity. Qed.
Lemma typename_ren n : keeps f n -> flatten_typename (f n) = mapr ren (flatten_typename n).
Proof.
  intros [[U U']|[N E]]; [rewrite !typename_user by auto; reflexivity|]. rewrite E.
  destruct (name_cases n) as [U|(s & r & H & ->)]; [tauto|]. rewrite (typename_table _ _ H). destruct r as [nd|]; [|reflexivity].
  destruct (table_shape _ _ H) as [(p & ->)|(b & -> & _)]; reflexivity.
Qed.
Lemma generic_ren (F F' : type1 -> res node) n a : keeps f n -> Forall (fun t => F' (ren1 f t) = mapr ren (F t)) a ->
  flatten_name_generic_with F' (f n) (map (ren1 f) a) = mapr ren (flatten_name_generic_with F n a).
Proof.
  intros K H. unfold flatten_name_generic_with. rewrite typename_ren by auto. apply bind_ren. intros nd _.
  destruct nd; cbn [ren_node]; try (destruct a; reflexivity). rewrite (collect_ren _ ren F) by auto. apply bind_ren. reflexivity.
Qed.
Lemma rule_generic_ren (F F' : type1 -> res node) n a : keeps f n -> Forall (fun t => F' (ren1 f t) = mapr ren (F t)) a ->
  flatten_rule_generic_with F' (f n) (map (ren1 f) a) = mapr (fun r => (f (fst r), map ren (snd r))) (flatten_rule_generic_with F n a).
Proof.
  intros K H. unfold flatten_rule_generic_with. rewrite (generic_ren F F') by auto. destruct (flatten_name_generic_with F n a) as [nd| |]; try reflexivity. destruct nd; reflexivity.
Qed.
Lemma type_ren (F F' : type1 -> res node) t : Forall (fun t => F' (ren1 f t) = mapr ren (F t)) t ->
  flatten_type_with F' (map (ren1 f) t) = mapr ren (flatten_type_with F t).
Proof.
  intros H. unfold flatten_type_with. rewrite (collect_ren _ ren F) by auto. apply bind_ren. intros [|a [|b l]] _; reflexivity.
Qed.
Lemma group_ren (F F' : grpent -> res node) g : Forall (Forall (fun e => F' (ren_ent f e) = mapr ren (F e))) g ->
  flatten_group_with F' (map (map (ren_ent f)) g) = mapr (map ren) (flatten_group_with F g).
Proof.
  intros H. assert (Q : bind_res (collect_res (fun gc => bind_res (collect_res F' gc) (fun members => Ok (NGroup members))) (map (map (ren_ent f)) g)) (fun options => Ok [NChoice options]) =
    mapr (map ren) (bind_res (collect_res (fun gc => bind_res (collect_res F gc) (fun members => Ok (NGroup members))) g) (fun options => Ok [NChoice options]))).
  { rewrite (collect_ren (map (ren_ent f)) ren (fun gc => bind_res (collect_res F gc) (fun members => Ok (NGroup members)))); [apply bind_ren; reflexivity|].
    eapply Forall_impl; [|exact H]. intros gc Hg. cbn beta. rewrite (collect_ren _ ren F) by auto. apply bind_ren. reflexivity. }
  destruct g as [|gc [|gc' g]]; auto. cbn [map flatten_group_with]. apply collect_ren. inversion H; auto.
Qed.
Lemma control_ren (F F' : type2 -> res node) t a op : F' (ren2 f t) = mapr ren (F t) -> F' (ren2 f a) = mapr ren (F a) ->
  flatten_control_with X F' (ren2 f t) (ren2 f a) op = mapr ren (flatten_control_with X F t a op).
Proof.
  intros Ht Ha. unfold flatten_control_with.
  assert (Q : forall k : node -> node -> res (control node), (forall x y, bind_res (k (ren x) (ren y)) (fun c => Ok (NControl c)) = mapr ren (bind_res (k x y) (fun c => Ok (NControl c)))) ->
    bind_res (F' (ren2 f t)) (fun t => bind_res (F' (ren2 f a)) (fun a => bind_res (k t a) (fun c => Ok (NControl c)))) =
    mapr ren (bind_res (F t) (fun t => bind_res (F a) (fun a => bind_res (k t a) (fun c => Ok (NControl c)))))).
  { intros k Hk. rewrite Ht. apply bind_ren. intros x _. rewrite Ha. apply bind_ren. intros y _. apply Hk. }
  repeat match goal with |- (if ?c then _ else _) = _ => destruct c end; try apply Q; try reflexivity;
    intros x y; unfold control_size, control_compare, control_regex, control_cbor; destruct y; try reflexivity; try (destruct l; try reflexivity).
  all: cbn; repeat (match goal with |- context [match ?y with _ => _ end] => is_var y; destruct y; cbn end; try reflexivity).
  all: match goal with |- context [regex_compiles X ?t] => destruct (regex_compiles X t); reflexivity end.
Qed.
Lemma kept_app l l' : kept (l ++ l') -> kept l /\ kept l'.
Proof. intros H. split; intros x I; apply H, in_app_iff; auto. Qed.
Lemma kept_flat {A} (g : A -> list text) (P : A -> Prop) l : kept (flat_map g l) -> Forall (fun a => kept (g a) -> P a) l -> Forall P l.
Proof.
  intros K H. apply Forall_forall. intros a I. rewrite Forall_forall in H. apply H; auto. intros x Ix. apply K, in_flat_map. eauto.
Qed.
Lemma kept_flat2 {A} (g : A -> list text) (P : A -> Prop) l : kept (flat_map (flat_map g) l) -> Forall (Forall (fun a => kept (g a) -> P a)) l -> Forall (Forall P) l.
Proof.
  intros K H. apply (kept_flat (flat_map g)); auto. eapply Forall_impl; [|exact H]. intros l' H' K'. eapply kept_flat; eauto.
Qed.
Lemma r2_eq t : ren2 f t =
  match t with
  | T2Value v => T2Value v
  | T2Typename n a => T2Typename (f n) (map (ren1 f) a)
  | T2Paren t => T2Paren (map (ren1 f) t)
  | T2Map g => T2Map (map (map (ren_ent f)) g)
  | T2Array g => T2Array (map (map (ren_ent f)) g)
  | T2Unwrap n a => T2Unwrap (f n) (map (ren1 f) a)
  | T2ChoiceifyInline g => T2ChoiceifyInline (map (map (ren_ent f)) g)
  | T2Choiceify n a => T2Choiceify (f n) (map (ren1 f) a)
  end.
Proof. destruct t; reflexivity. Qed.
Lemma r1_eq t : ren1 f t =
  match t with
  | T1Simple t => T1Simple (ren2 f t)
  | T1Range s e i => T1Range (ren2 f s) (ren2 f e) i
  | T1Control t a op => T1Control (ren2 f t) (ren2 f a) op
  end.
Proof. destruct t; reflexivity. Qed.
Lemma re_eq o v : ren_ent f (GrpEnt o v) = GrpEnt o (ren_gval f v). Proof. reflexivity. Qed.
Lemma rv_eq v : ren_gval f v =
  match v with
  | GMember k t => GMember (match k with Some (MKey v c) => Some (MKey (match v with MKType1 t => MKType1 (ren1 f t) | MKBareword s => MKBareword s | MKValue v => MKValue v end) c) | None => None end) (map (ren1 f) t)
  | GGroupname n => GGroupname (f n)
  | GParen g => GParen (map (map (ren_ent f)) g)
  end.
Proof. destruct v as [[[k c]|] t|n|g]; try reflexivity. destruct k; reflexivity. Qed.
Theorem flatten_ren :
  (forall t, kept (names2 t) -> flatten_type2 X (ren2 f t) = mapr ren (flatten_type2 X t)) /\
  (forall t, kept (names1 t) -> flatten_type1 X (ren1 f t) = mapr ren (flatten_type1 X t)) /\
  (forall g, kept (names_ent g) -> flatten_grpent X (ren_ent f g) = mapr ren (flatten_grpent X g)) /\
  (forall v, kept (names_gval v) -> flatten_grpent_val X (ren_gval f v) = mapr ren (flatten_grpent_val X v)).
Proof.
  apply ast_ind.
  - intros v _. apply value_ren.
  - intros n a H K. rewrite r2_eq, !ft2_eq. apply generic_ren; [apply K; left; auto|]. eapply kept_flat; eauto. intros x I. apply K. right; auto.
  - intros t H K. rewrite r2_eq, !ft2_eq. apply type_ren. eapply kept_flat; eauto.
  - intros g H K. rewrite r2_eq, !ft2_eq. rewrite (group_ren (flatten_grpent X)) by (eapply kept_flat2; eauto). apply bind_ren. reflexivity.
  - intros g H K. rewrite r2_eq, !ft2_eq. rewrite (group_ren (flatten_grpent X)) by (eapply kept_flat2; eauto). apply bind_ren. reflexivity.
  - intros n a H K. rewrite r2_eq, !ft2_eq. rewrite (rule_generic_ren (flatten_type1 X)); [apply bind_ren; reflexivity|apply K; left; auto|].
    eapply kept_flat; eauto. intros x I. apply K. right; auto.
  - intros g H K. rewrite r2_eq, !ft2_eq. rewrite (group_ren (flatten_grpent X)) by (eapply kept_flat2; eauto). apply bind_ren. reflexivity.
  - intros n a H K. rewrite r2_eq, !ft2_eq. rewrite (rule_generic_ren (flatten_type1 X)); [apply bind_ren; reflexivity|apply K; left; auto|].
    eapply kept_flat; eauto. intros x I. apply K. right; auto.
  - intros t H K. apply H; auto.
  - intros s e i Hs He K. apply kept_app in K. destruct K as [Ks Ke]. rewrite r1_eq, !ft1_eq.
    assert (P : forall p, flatten_type2 X (ren2 f p) = mapr ren (flatten_type2 X p) ->
      range_point_with (flatten_type1 X) (ren2 f p) = mapr ren (range_point_with (flatten_type1 X) p)).
    { intros p Hp. unfold range_point_with. destruct p; try reflexivity.
      - destruct v; reflexivity.
      - rewrite r2_eq, !ft2_eq in Hp. rewrite r2_eq, Hp. apply bind_ren. intros nd _. destruct nd; reflexivity. }
    rewrite (P s) by auto. apply bind_ren. intros x _. rewrite (P e) by auto. apply bind_ren. reflexivity.
  - intros t a o Ht Ha K. apply kept_app in K. destruct K as [Kt Ka]. rewrite r1_eq, !ft1_eq. apply control_ren; auto.
  - intros o v H K. rewrite re_eq, !fte_eq. rewrite H by auto. apply bind_ren. intros nd _. destruct o; reflexivity.
  - intros t H K. rewrite rv_eq, !ftv_eq. apply type_ren. eapply kept_flat; eauto.
  - intros s c t H K. rewrite rv_eq, !ftv_eq. rewrite !fmk_eq. cbn [bind_res].
    rewrite (type_ren (flatten_type1 X)) by (eapply kept_flat; eauto). apply bind_ren. reflexivity.
  - intros v c t H K. rewrite rv_eq, !ftv_eq. rewrite !fmk_eq.
    rewrite (type_ren (flatten_type1 X)) by (eapply kept_flat; eauto). rewrite value_ren at 1. apply bind_ren. intros a _. apply bind_ren. reflexivity.
  - intros k c t Hk H K. cbn [names_gval] in K. apply kept_app in K. destruct K as [Kk Kt].
    rewrite rv_eq, !ftv_eq. rewrite !fmk_eq.
    rewrite (type_ren (flatten_type1 X)) by (eapply kept_flat; eauto). rewrite Hk by auto. apply bind_ren. intros a _. apply bind_ren. reflexivity.
  - intros s K. rewrite rv_eq, !ftv_eq. apply typename_ren. apply K. left; auto.
  - intros g H K. rewrite rv_eq, !ftv_eq. rewrite (group_ren (flatten_grpent X)) by (eapply kept_flat2; eauto). apply bind_ren. reflexivity.
Qed.
Lemma flatten_val_ren v : kept (names_val v) ->
  match ren_val f v with AssignType t => flatten_type X t | AssignGroup g => flatten_grpent X g end =
  mapr ren (match v with AssignType t => flatten_type X t | AssignGroup g => flatten_grpent X g end).
Proof.
  destruct flatten_ren as (_ & T1 & Te & _). destruct v as [t|g]; cbn [ren_val names_val]; intros K; auto.
  apply type_ren. eapply kept_flat; eauto. apply Forall_forall. intros x _. auto.
Qed.
End WithF.

(** * The names of a converted tree come from the syntax tree. *)
Definition from (S : list text) (nd : node) : Prop := forall n, mentions nd n -> In n S.
Lemma from_leaf S nd : refers nd = None -> children nd = [] -> from S nd.
Proof. intros R C n M. inversion M as [? ? ? R'|? ? ? I]; subst; [congruence|]. rewrite C in I. destruct I. Qed.
Lemma from_ref S nd name args : refers nd = Some (name, args) -> In name S -> Forall (from S) (children nd) -> from S nd.
Proof. intros R U F n M. inversion M as [? ? ? R'|? ? ? I M']; subst; [congruence|]. rewrite Forall_forall in F. eapply F; eauto. Qed.
Lemma from_node S nd : refers nd = None -> Forall (from S) (children nd) -> from S nd.
Proof. intros R F n M. inversion M as [? ? ? R'|? ? ? I M']; subst; [congruence|]. rewrite Forall_forall in F. eapply F; eauto. Qed.
Lemma from_table S s nd : In (s, Some nd) prelude_table -> from S nd.
Proof. intros H. destruct (table_shape _ _ H) as [(p & ->)|(b & -> & _)]; apply from_leaf; reflexivity. Qed.
Lemma from_incl S S' nd : incl S S' -> from S nd -> from S' nd. Proof. intros I H n M. auto. Qed.

Section Names.
Variable rx : text -> bool.
Lemma means_from S :
  (forall t, incl (names2 t) S -> (forall nd, means2 rx t nd -> from S nd) /\ (forall nd, means_point rx t nd -> from S nd)) /\
  (forall t, incl (names1 t) S -> forall nd, means1 rx t nd -> from S nd) /\
  (forall g, incl (names_ent g) S -> forall nd, means_entry rx g nd -> from S nd) /\
  (forall v, incl (names_gval v) S -> forall nd, means_entry_val rx v nd -> from S nd).
Proof.
  assert (L : forall l, from S (NLiteral l)) by (intros; apply from_leaf; reflexivity).
  assert (A : forall args args', Forall (fun t => incl (names1 t) S -> forall nd, means1 rx t nd -> from S nd) args -> incl (flat_map names1 args) S ->
     Forall2 (means1 rx) args args' -> Forall (from S) args').
  { intros args args' F I M. revert F I. induction M as [|a a' l l' H M IH]; intros F I; constructor; apply Forall_cons_iff in F; destruct F as [F1 F2].
    - eapply F1; eauto. intros x Ix. apply I. cbn. apply in_app_iff. auto.
    - apply IH; auto. intros x Ix. apply I. cbn. apply in_app_iff. auto. }
  assert (T : forall t, Forall (fun t => incl (names1 t) S -> forall nd, means1 rx t nd -> from S nd) t -> incl (flat_map names1 t) S -> forall nd, means_type rx t nd -> from S nd).
  { intros t F I nd M. inversion M as [? ? H|t1 t2 ts n1 n2 ns H1 H2 Hs]; subst.
    - apply Forall_cons_iff in F; destruct F as [F1 F2]. eapply F1; eauto. intros x Ix. apply I. cbn. apply in_app_iff. auto.
    - apply from_node; auto. apply (A (t1 :: t2 :: ts)); auto; repeat constructor; auto. }
  assert (E : forall es ms, Forall (fun g => incl (names_ent g) S -> forall nd, means_entry rx g nd -> from S nd) es -> incl (flat_map names_ent es) S ->
      Forall2 (means_entry rx) es ms -> Forall (from S) ms).
  { intros es ms F I M. revert F I. induction M as [|a a' l l' H M IH]; intros F I; constructor; apply Forall_cons_iff in F; destruct F as [F1 F2].
    - eapply F1; eauto. intros x Ix. apply I. cbn. apply in_app_iff. auto.
    - apply IH; auto. intros x Ix. apply I. cbn. apply in_app_iff. auto. }
  assert (G : forall g, Forall (Forall (fun g => incl (names_ent g) S -> forall nd, means_entry rx g nd -> from S nd)) g -> incl (flat_map (flat_map names_ent) g) S ->
     forall ms, means_group rx g ms -> Forall (from S) ms).
  { intros g F I ms M. inversion M as [gc ms' H|g' os N H]; subst.
    - apply Forall_cons_iff in F; destruct F as [F1 F2]. eapply E; eauto. intros x Ix. apply I. cbn. apply in_app_iff. auto.
    - repeat constructor. apply from_node; auto. cbn. clear M N. revert F I. induction H as [|a a' l l' H H' IH]; intros F I; constructor; apply Forall_cons_iff in F; destruct F as [F1 F2].
      + inversion H; subst. apply from_node; auto. cbn. eapply E; eauto. intros x Ix. apply I. cbn. apply in_app_iff. auto.
      + apply IH; auto. intros x Ix. apply I. cbn. apply in_app_iff. auto. }
  assert (C : forall n l, incl (n :: l) S -> In n S /\ incl l S) by (intros n l I; split; [apply I; left; auto|intros x Ix; apply I; right; auto]).
  assert (P : forall l l', incl (l ++ l') S -> incl l S /\ incl l' S) by (intros l l' I; split; intros x Ix; apply I, in_app_iff; auto).
  apply ast_ind.
  - intros v I. split; intros nd M; inversion M; auto.
  - intros n a H I. apply C in I. destruct I. split; intros nd M; inversion M; subst; auto; try (eapply from_table; eauto; fail);
      (eapply from_ref; [reflexivity|auto|cbn; eauto]).
  - intros t H I. split; intros nd M; inversion M; subst; eauto.
  - intros g H I. split; intros nd M; inversion M; subst. apply from_node; cbn; eauto.
  - intros g H I. split; intros nd M; inversion M; subst. apply from_node; cbn; eauto.
  - intros n a H I. apply C in I. destruct I. split; intros nd M; inversion M; subst. eapply from_ref; [reflexivity|auto|cbn; eauto].
  - intros g H I. split; intros nd M; inversion M; subst. apply from_node; cbn; eauto.
  - intros n a H I. apply C in I. destruct I. split; intros nd M; inversion M; subst. eapply from_ref; [reflexivity|auto|cbn; eauto].
  - intros t H I nd M; inversion M; subst. apply (proj1 (H I)); auto.
  - intros s e i Hs He I nd M. apply P in I. destruct I. inversion M; subst. apply from_node; cbn; auto. constructor; [apply (proj2 (Hs H)); auto|constructor; [apply (proj2 (He H0)); auto|auto]].
  - intros t a o Ht Ha I nd M. apply P in I. destruct I as [It Ia]. inversion M as [| |? ? ? t' a' c Mt Ma C']; subst. apply from_node; auto.
    apply (Ht It) in Mt. apply (Ha Ia) in Ma. inversion C'; subst; cbn; auto.
  - intros o v H I nd M; inversion M; subst; eauto. apply from_node; cbn; eauto.
  - intros t H I nd M; inversion M; subst; eauto.
  - intros s c t H I nd M; inversion M; subst. apply from_node; cbn; eauto.
  - intros v c t H I nd M; inversion M; subst. apply from_node; cbn; eauto.
  - intros k c t Hk H I nd M. cbn [names_gval] in I. apply P in I. destruct I. inversion M; subst. apply from_node; cbn; eauto.
  - intros s I nd M; inversion M; subst; [eapply from_table; eauto|]. eapply from_ref; [reflexivity|apply I; left; auto|constructor].
  - intros g H I nd M; inversion M; subst. apply from_node; cbn; eauto.
Qed.
End Names.

(** * Schemas *)
Lemma text_eqb_cases a b : reflect (a = b) (text_eqb a b).
Proof. destruct (text_eqb a b) eqn:E; constructor; [apply text_eqb_eq; auto|]. intros H. apply text_eqb_eq in H. congruence. Qed.

Section Schemas.
Variable X : ext.
Variable R : text -> text.
Let rx := regex_compiles X.
Lemma val_from v d name parms : means_rule rx (Rule name parms v) d -> from (names_val v) (rd_node d).
Proof.
  destruct (means_from rx (names_val v)) as (_ & M1 & Me & _). intros M. inversion M as [? ? t nd H|? ? g nd H]; subst; cbn [rd_node].
  - inversion H as [t1 nd' H'|t1 t2 ts n1 n2 ns H1 H2 Hs]; subst.
    + apply (M1 t1); auto. cbn. intros x I. apply in_app_iff; auto.
    + apply from_node; auto. cbn [children]. apply Forall_forall. intros nd I.
      assert (F : Forall2 (means1 rx) (t1 :: t2 :: ts) (n1 :: n2 :: ns)) by (constructor; auto).
      assert (exists t, In t (t1 :: t2 :: ts) /\ means1 rx t nd) as (t & It & Mt).
      { clear -F I. induction F as [|a b la lb Hab F IHF]; [destruct I|]. destruct I as [->|I]; [eexists; split; [left; reflexivity|auto]|]. destruct (IHF I) as (t & J & K). exists t. split; auto. right; auto. }
      apply (M1 t); auto. intros x Ix. cbn [names_val]. apply in_flat_map. eauto.
  - apply (Me g); auto. cbn. apply incl_refl.
Qed.
Lemma rule_ren r r' : renamed_rule R r r' ->
  match flatten_rule X r with
  | Ok (n, d) => exists d', flatten_rule X r' = Ok (R n, d') /\ renamed_def R d d'
  | Err e => flatten_rule X r' = Err e
  | Panic => flatten_rule X r' = Panic
  end.
Proof.
  intros (f & J & K & ->). destruct (flatten_rule X r) as [[n d]| |] eqn:E.
  all: pose proof E as E'; unfold flatten_rule in E |- *; cbn [r_val r_name r_parms];
    rewrite (flatten_val_ren X f (r_val r)) by (intros x I; apply K; auto);
    destruct (match r_val r with AssignType t => flatten_type X t | AssignGroup g => flatten_grpent X g end) as [nd| |]; cbn [mapr bind_res] in *; try discriminate; try (congruence).
  inversion E; subst n d. clear E. eexists. split; [reflexivity|]. exists f. cbn [rd_parms rd_node]. split; auto. split; auto.
  intros x M. apply flatten_rule_exact in E'. destruct E' as [_ E']. pose proof E' as C. destruct r as [n ps v]. cbn [r_parms r_val r_name] in *.
  apply K; [apply (val_from _ _ _ _ E'); auto|]. 
  destruct (means_clean rx) as (_ & M1 & Me & _). inversion C as [? ? t nd' H|? ? g nd' H]; subst; [|eapply Me; eauto].
  apply (proj1 (proj1 (means_clean rx) (T2Paren t)) nd); auto. constructor; auto.
Qed.
Definition renp (p p' : text * rule_def) : Prop := fst p' = R (fst p) /\ renamed_def R (snd p) (snd p').
Lemma rules_ren c c' : renamed_cddl R c c' ->
  match collect_res (flatten_rule X) c with
  | Ok l => exists l', collect_res (flatten_rule X) c' = Ok l' /\ Forall2 renp l l'
  | Err e => collect_res (flatten_rule X) c' = Err e
  | Panic => collect_res (flatten_rule X) c' = Panic
  end.
Proof.
  induction 1 as [|r r' c c' H H' IH]; cbn [collect_res]; [eexists; split; [reflexivity|constructor]|].
  apply rule_ren in H. destruct (flatten_rule X r) as [[n d]| |]; [|rewrite H; reflexivity..]. destruct H as (d' & -> & D). cbn [bind_res].
  destruct (collect_res (flatten_rule X) c) as [l| |]; [|rewrite IH; reflexivity..]. destruct IH as (l' & -> & F). cbn. eexists. split; [reflexivity|].
  constructor; auto. split; auto.
Qed.
Hypothesis Rinj : forall x y, R x = R y -> x = y.
Lemma get_ren l l' : Forall2 renp l l' -> forall x,
  match rules_get (tm_collect l) x with
  | Some d => exists d', rules_get (tm_collect l') (R x) = Some d' /\ renamed_def R d d'
  | None => rules_get (tm_collect l') (R x) = None
  end.
Proof.
  assert (N : forall (rs : rules) x, tm_sorted rs -> (rules_get rs x = None <-> forall d, ~ In (x, d) rs)).
  { intros rs x S. split.
    - intros E d I. apply rules_get_in in I; auto. congruence.
    - intros H. destruct (rules_get rs x) as [d|] eqn:E; auto. apply rules_get_in in E; auto. destruct (H d); auto. }
  assert (P : forall (rs : rules) k d x, tm_sorted rs -> rules_get (tm_insert k d rs) x = if text_eqb x k then Some d else rules_get rs x).
  { intros rs k d x S. assert (S' := tm_insert_sorted k d rs S). destruct (text_eqb_cases x k) as [->|Q].
    - apply rules_get_in; auto. apply tm_insert_in; auto.
    - destruct (rules_get rs x) as [e|] eqn:E.
      + apply rules_get_in; auto. apply tm_insert_in; auto. right. split; auto. apply rules_get_in; auto.
      + apply N; auto. intros e I. apply tm_insert_in in I; auto. destruct I as [[-> _]|[_ I]]; [congruence|]. apply rules_get_in in I; auto. congruence. }
  revert l'. induction l as [|[n d] l IH] using rev_ind; intros l' F x.
  - inversion F; reflexivity.
  - apply Forall2_app_inv_l in F. destruct F as (l1 & l2 & F1 & F2 & ->). inversion F2 as [|? [n' d'] ? ? [En D] F3]; subst. inversion F3; subst. cbn [fst snd] in *. subst n'.
    rewrite !tm_collect_snoc. cbn [fst snd]. rewrite !P by apply tm_collect_sorted.
    destruct (text_eqb_cases x n) as [->|Q].
    + destruct (text_eqb_cases (R n) (R n)) as [_|?]; [|congruence]. eauto.
    + destruct (text_eqb_cases (R x) (R n)) as [E|_]; [apply Rinj in E; contradiction|]. apply IH; auto.
Qed.
Theorem flatten_cddl_ren c c' : renamed_cddl R c c' ->
  match flatten X c with
  | Ok rs => exists rs', flatten X c' = Ok rs' /\
      forall x, match rules_get rs x with
                | Some d => exists d', rules_get rs' (R x) = Some d' /\ renamed_def R d d'
                | None => rules_get rs' (R x) = None
                end
  | Err e => flatten X c' = Err e
  | Panic => flatten X c' = Panic
  end.
Proof.
  intros H. apply rules_ren in H. unfold flatten. destruct (collect_res (flatten_rule X) c) as [l| |]; [|rewrite H; reflexivity..].
  destruct H as (l' & -> & F). cbn. eexists. split; [reflexivity|]. apply get_ren; auto.
Qed.
Lemma context_ren rs rs' : (forall x, match rules_get rs x with
                | Some d => exists d', rules_get rs' (R x) = Some d' /\ renamed_def R d d'
                | None => rules_get rs' (R x) = None
                end) -> renamed_context R (basic_context rs) (basic_context rs').
Proof.
  intros H x. specialize (H x). unfold basic_context. destruct (rules_get rs x) as [d|]; [destruct H as (d' & -> & D); eauto|rewrite H; reflexivity].
Qed.
End Schemas.
