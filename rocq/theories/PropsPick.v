(** Choices made from generic groups: C81. *)
From Coq Require Import List Bool ZArith NArith String Lia Arith.
From Verif Require Import Base Util Data Value Convert Ivt Scalar Validate Total Fun SpecBase SpecConvert CtxProofs SpecScope Demo PropsScope.
Import ListNotations.
Open Scope list_scope.

(** A group that has one entry for each of its parameters: [g<p, q> = (k: p, l: q)]. *)
Inductive offers : list text -> list node -> Prop :=
| of_nil : offers [] []
| of_cons p ps k cut ms : offers ps ms -> offers (p :: ps) (NKeyValue k (NRule p []) cut :: ms).

Lemma bound_argument ps args p a : NoDup ps -> In (p, a) (combine ps args) -> gm_get p (gm_collect (combine ps args)) = Some a.
Proof.
  intros N I. apply gm_get_collect. apply in_split in I. destruct I as (pre & post & E). exists pre, post. split; auto.
  assert (S : forall (ps : list text) (args : list node), exists l, ps = map fst (combine ps args) ++ l).
  { clear. induction ps as [|x ps IH]; intros [|y args]; cbn; eauto. destruct (IH args) as [l E]. exists l. congruence. }
  destruct (S ps args) as [l El]. rewrite E in El. rewrite El, map_app in N. cbn in N. rewrite <- app_assoc in N. cbn in N.
  apply NoDup_remove_2 in N. intros Q. apply N. apply in_or_app. right. apply in_or_app. auto.
Qed.

Section Props.
Variable X : ext.
Variable lk : lookup_context.

(** The same alternatives, with the same outcomes, tried in the same order. *)
Definition agree {St} (a b : res unit * St) : Prop :=
  a = b \/ exists e e', fst a = Err e /\ fst b = Err e'.
Lemma tries_agree {St} stop (f g : node -> St -> res unit * St) os ps fin fin' :
  Forall2 (fun o p => forall s, f o s = g p s) os ps -> forall s, agree (tries stop f os fin s) (tries stop g ps fin' s).
Proof.
  induction 1 as [|o p os ps E F IH]; intros s; cbn; [right; exists fin, fin'; split; reflexivity|]. rewrite E. destruct (g p s) as [[u|e|] s']; [left; auto| |left; auto].
  destruct (stop e); [left; auto|apply IH].
Qed.
Lemma tries_pure_agree stop f g os ps fin fin' :
  Forall2 (fun o p => f o = g p) os ps -> tries_pure stop f os fin = Ok tt <-> tries_pure stop g ps fin' = Ok tt.
Proof.
  induction 1 as [|o p os ps E F IH]; cbn; [split; discriminate|]. rewrite E. destruct (g p) as [u|e|]; try tauto. destruct (stop e); [tauto|exact IH].
Qed.

Lemma offered ps : forall args ms (P : node -> node -> Prop), offers ps ms -> List.length ps = List.length args ->
  (forall p a k cut, In (p, a) (combine ps args) -> P (NKeyValue k (NRule p []) cut) a) -> Forall2 P ms args.
Proof.
  induction ps as [|p ps IH]; intros args ms P O L H; inversion O; subst; destruct args as [|a args]; try discriminate; constructor.
  - apply H. left; reflexivity.
  - eapply IH; eauto. intros. apply H. right; auto.
Qed.

Variable g : text.
Variable ps : list text.
Variable ms : list node.
Variable args : list node.
Hypothesis Hg : lk g = inl (RuleDef ps (NGroup ms)).
Hypothesis Ho : offers ps ms.
Hypothesis Hd : NoDup ps.
Hypothesis Hl : List.length ps = List.length args.

(** ** C81.  [&g<a, b>] accepts what [a / b] accepts: as a type ... *)
Theorem C81_type : forall v,
  run_validate X lk v (RuleDef [] (NChoiceify g args)) = Ok tt <-> run_validate X lk v (RuleDef [] (NChoice args)) = Ok tt.
Proof.
  intros v. rewrite !run_validate_val by auto. cbn [rd_node]. rewrite !val_eq, chval_eq, (lookup_enter lk initial_ctx g args _ eq_refl Hg Hl). cbn [max_depth ctx_depth initial_ctx N.leb N.compare rd_node].
  apply tries_pure_agree. apply (offered ps); auto. intros p a k cut I. cbn. rewrite val_eq.
  rewrite (lookup_param _ _ _ _ a initial_ctx); [reflexivity| |reflexivity]. apply bound_argument; auto.
Qed.
(** ... and among the members of a map, where also the rest of the map is seen alike. *)
Theorem C81_map : forall v before after,
  run_validate X lk v (RuleDef [] (NMap (before ++ NChoiceify g args :: after))) = Ok tt <->
  run_validate X lk v (RuleDef [] (NMap (before ++ NChoice args :: after))) = Ok tt.
Proof.
  intros v before after. rewrite !run_validate_val by auto. cbn [rd_node]. rewrite !val_eq. unfold map_all. destruct v as [| | | | | | |entries]; try tauto.
  assert (A : forall w, agree (mval X lk (NChoiceify g args) w initial_ctx) (mval X lk (NChoice args) w initial_ctx)).
  { intros w. rewrite (mval_eq X lk (NChoiceify g args)), (mval_eq X lk (NChoice args)), mchval_eq, (lookup_enter lk initial_ctx g args _ eq_refl Hg Hl).
    cbn [max_depth ctx_depth initial_ctx N.leb N.compare rd_node].
    apply tries_agree. apply (offered ps); auto. intros p a k cut I s. cbn. rewrite mval_eq.
    rewrite (lookup_param _ _ _ _ a initial_ctx); [reflexivity| |reflexivity]. apply bound_argument; auto. }
  generalize (wm_new entries). induction before as [|m before IH]; intros w; cbn [app seqs].
  - destruct (A w) as [-> |(e & e' & E & E')]; [tauto|].
    destruct (mval X lk (NChoiceify g args) w initial_ctx) as [r s], (mval X lk (NChoice args) w initial_ctx) as [r' s']. cbn in E, E'. subst.
    split; discriminate.
  - destruct (mval X lk m w initial_ctx) as [[u|e|] s]; try tauto. apply IH.
Qed.
(** ... and as an element of an array, where it stands for one element of the type
    [a / b]. *)
Theorem C81_array : forall v before after key cut,
  run_validate X lk v (RuleDef [] (NArray (before ++ NChoiceify g args :: after))) = Ok tt <->
  run_validate X lk v (RuleDef [] (NArray (before ++ NKeyValue key (NChoice args) cut :: after))) = Ok tt.
Proof.
  intros v before after key cut. rewrite !run_validate_val by auto. cbn [rd_node]. rewrite !val_eq. unfold array_all. destruct v as [| | | | | |a|]; try tauto.
  generalize (wa_new a). induction before as [|m before IH]; intros w; cbn [app seqs].
  - rewrite (aval_eq X lk (NChoiceify g args)), (aval_eq X lk (NKeyValue key (NChoice args) cut)). unfold array_value.
    destruct (wa_peek_front w) as [x|]; [|split; discriminate]. pose proof (C81_type x) as T. rewrite !run_validate_val in T by auto. cbn [rd_node] in T.
    destruct (val X lk x (NChoiceify g args) initial_ctx) as [[]|e|], (val X lk x (NChoice args) initial_ctx) as [[]|e'|]; try tauto;
      try (exfalso; destruct T as [T1 T2]; first [discriminate (T1 eq_refl)|discriminate (T2 eq_refl)]); split; discriminate.
  - destruct (aval X lk m w initial_ctx) as [[u|e|] s]; try tauto. apply IH.
Qed.
End Props.

(** [g<p, q> = (k: p, l: q)] in a map: the argument is the group [m = (k: int)] or
    the group [n = (k: tstr)]. *)
Definition rules_pick : rules :=
  [ (txt "g", RuleDef [txt "p"; txt "q"] (NGroup [NKeyValue (lit_s "k") (name_ "p") true; NKeyValue (lit_s "l") (name_ "q") true]));
    (txt "m", RuleDef [] (NGroup [NKeyValue (lit_s "k") int_t true]));
    (txt "n", RuleDef [] (NGroup [NKeyValue (lit_s "j") tstr_t true])) ].
Definition picked := RuleDef [] (NMap [NChoiceify (txt "g") [name_ "m"; name_ "n"]]).
Example C81_example :
  run_validate demo_ext (basic_context rules_pick) (VMap [(vs "k", vi 1)]) picked = Ok tt /\
  run_validate demo_ext (basic_context rules_pick) (VMap [(vs "j", vs "x")]) picked = Ok tt /\
  (exists e, run_validate demo_ext (basic_context rules_pick) (VMap [(vs "j", vi 1)]) picked = Err e) /\
  run_validate demo_ext (basic_context rules_pick) (vi 4) (RuleDef [] (NChoiceify (txt "g") [int_t; tstr_t])) = Ok tt /\
  run_validate demo_ext (basic_context rules_pick) (VArray [vi 4; vs "x"])
    (RuleDef [] (NArray [int_t; NChoiceify (txt "g") [int_t; tstr_t]])) = Ok tt /\
  offers [txt "p"; txt "q"] [NKeyValue (lit_s "k") (name_ "p") true; NKeyValue (lit_s "l") (name_ "q") true].
Proof.
  assert (O : offers [txt "p"; txt "q"] [NKeyValue (lit_s "k") (name_ "p") true; NKeyValue (lit_s "l") (name_ "q") true]) by (repeat constructor).
  assert (D : NoDup [txt "p"; txt "q"]) by (repeat constructor; cbn; intuition discriminate).
  repeat split; auto; rewrite ?run_validate_val by reflexivity; try (run 20).
  eexists. run 20.
Qed.

Print Assumptions C81_type.
Print Assumptions C81_map.
Print Assumptions C81_array.
