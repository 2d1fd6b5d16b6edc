(** What the validator does, for every schema: C66. *)
From Coq Require Import List Bool ZArith NArith String Lia.
From Verif Require Import Base Util Data Value Convert Ivt Scalar Validate Total Fun NoPanic MapProofs SpecBase SpecConvert SpecVerdict SpecPos SpecPeg
  ConvertProofs ConvertExact CtxProofs Ast Flatten Parser Api PegExact PegTame Demo PropsData PropsMeaning PropsBlame SpecActs ActProofs.
Import ListNotations.
Open Scope list_scope.

(** ** C66.  [SpecActs.acts] says what validation answers and what members take,
    with plain lists and no snapshots.  The validator answers exactly that, messages
    included. *)
Theorem C66_exact : forall X lk v def r,
  (forall name e, lk name = inr e -> is_fatal e = true) -> wf_value v -> rd_parms def = [] ->
  (acts X lk (AskType initial_ctx (rd_node def) v) r <-> ruling (run_validate X lk v def) = Some r).
Proof.
  intros X lk v def r Hl W P. rewrite run_validate_val by auto. apply acts_exact; auto. apply wf_keys_sorted; auto.
Qed.
(** There is always an answer, and only one. *)
Theorem C66_answered : forall X lk v def,
  (forall name e, lk name = inr e -> is_fatal e = true) -> wf_value v -> rd_parms def = [] ->
  exists r, acts X lk (AskType initial_ctx (rd_node def) v) r /\ (r = Accept \/ (exists m, r = Reject m) \/ exists e, r = Wrong e).
Proof.
  intros X lk v def Hl W P. destruct (val_spec X lk v (rd_node def) initial_ctx) as (n & E).
  pose proof (wf_keys_sorted _ W) as K.
  pose proof (proj1 (VC X lk Hl n) _ _ _ K _ E) as C. apply repV_ruling in C.
  eexists. split; [apply C66_exact; auto; rewrite run_validate_val by auto; exact C|].
  destruct (val X lk v (rd_node def) initial_ctx) as [|[]|]; cbn in *; eauto; discriminate.
Qed.
Theorem C66_deterministic : forall X lk q r1 r2, acts X lk q r1 -> acts X lk q r2 -> r1 = r2.
Proof. intros. eapply acts_det; eauto. Qed.

(** Members of arrays: exactly which elements are taken and which are left, on
    success and on failure. *)
Theorem C66_array_member : forall X lk c m a msg took rest,
  (forall name e, lk name = inr e -> is_fatal e = true) -> Forall wf_value a ->
  (acts X lk (AskArr c m a) (DidA Matched took rest) <-> aval X lk m (WA a [[]]) c = (Ok tt, WA rest [took])) /\
  (acts X lk (AskArr c m a) (DidA (Missed msg) took rest) <-> aval X lk m (WA a [[]]) c = (Err (EMismatch msg), WA rest [took])).
Proof.
  intros X lk c m a msg took rest Hl W.
  assert (K : Forall keys_sorted a) by (eapply Forall_impl; [|exact W]; intros; apply wf_keys_sorted; auto).
  destruct (acts_array X lk Hl c m a K) as (r & t & l & E & C & P). rewrite E. split; split.
  - intros Q. pose proof (acts_det _ _ _ _ P _ Q) as D. destruct r as [[]|[]|]; inversion D; subst; auto.
  - intros [= -> -> ->]. exact P.
  - intros Q. pose proof (acts_det _ _ _ _ P _ Q) as D. destruct r as [[]|[]|]; inversion D; subst; eauto.
  - intros [= -> -> ->]. exact P.
Qed.
Theorem C66_map_member : forall X lk c m es msg took rest,
  (forall name e, lk name = inr e -> is_fatal e = true) -> wf_value (VMap es) ->
  (acts X lk (AskMap c m es) (DidM Matched took rest) <-> mval X lk m (WM es [[]]) c = (Ok tt, WM rest [took])) /\
  (acts X lk (AskMap c m es) (DidM (Missed msg) took rest) <-> mval X lk m (WM es [[]]) c = (Err (EMismatch msg), WM rest [took])) /\
  (acts X lk (AskMap c m es) (DidM (Stopped msg) took rest) <-> mval X lk m (WM es [[]]) c = (Err (EMapCut msg), WM rest [took])).
Proof.
  intros X lk c m es msg took rest Hl W.
  assert (K : map_ok (WM es [[]])).
  { pose proof (keys_map_ok es (wf_keys_sorted _ W)) as (A & B & D). split; [exact A|split; [exact B|repeat constructor]]. }
  destruct (acts_map X lk Hl c m es K) as (r & t & l & E & C & P). rewrite E. repeat split.
  - intros Q. pose proof (acts_det _ _ _ _ P _ Q) as D. destruct r as [[]|[]|]; inversion D; subst; auto.
  - intros [= -> -> ->]. exact P.
  - intros Q. pose proof (acts_det _ _ _ _ P _ Q) as D. destruct r as [[]|[]|]; inversion D; subst; eauto.
  - intros [= -> -> ->]. exact P.
  - intros Q. pose proof (acts_det _ _ _ _ P _ Q) as D. destruct r as [[]|[]|]; inversion D; subst; eauto.
  - intros [= -> -> ->]. exact P.
Qed.

(** Through the entry points. *)
Theorem C66_json : forall X name schema data rs def j v r,
  flatten_from_str X schema = Ok rs -> rules_get rs name = Some def -> rd_parms def = [] ->
  json_decode X data = inl j -> wf_json j -> json_means j v ->
  (acts X (basic_context rs) (AskType initial_ctx (rd_node def) v) r <-> ruling (validate_json_str X name schema data) = Some r).
Proof.
  intros X name schema data rs def j v r F G P D W M.
  destruct (of_json_exact j) as (v' & O & M'). assert (v' = v) as -> by (eapply json_means_unique; eauto).
  unfold validate_json_str. rewrite F. cbn. unfold get_rule. rewrite G. cbn. rewrite D, O. cbn.
  rewrite run_validate_val by auto. apply acts_exact; [apply basic_fatal|]. apply wf_keys_sorted. eapply wf_of_json; eauto.
Qed.
Theorem C66_cbor : forall X name schema data rs def j v r,
  flatten_from_str X schema = Ok rs -> rules_get rs name = Some def -> rd_parms def = [] ->
  cbor_decode X data = inl j -> of_cbor j = Ok v ->
  (acts X (basic_context rs) (AskType initial_ctx (rd_node def) v) r <-> ruling (validate_cbor_bytes X name schema data) = Some r).
Proof.
  intros X name schema data rs def j v r F G P D O.
  unfold validate_cbor_bytes. rewrite F. cbn. unfold get_rule. rewrite G. cbn. rewrite D, O. cbn.
  rewrite run_validate_val by auto. apply acts_exact; [apply basic_fatal|].
  destruct (of_cbor_spec j) as [(v' & O' & K)|(msg & O')]; congruence.
Qed.

(** On tame schemas this is the ordered-choice reading. *)
Definition same_answer (r : reply) (o : answer) : Prop :=
  match r, o with Accept, Yes => True | Reject _, No => True | Wrong e, Bad e' => error_kind e = e' | _, _ => False end.
Theorem C66_tame : forall X lk c t v, (forall name e, lk name = inr e -> is_fatal e = true) -> wf_value v -> tame lk c t ->
  exists r o, acts X lk (AskType c t v) r /\ peg X lk (QType c t v) o /\ same_answer r o.
Proof.
  intros X lk c t v Hl W T. pose proof (wf_keys_sorted _ W) as K.
  destruct (val_spec X lk v t c) as (n & E). pose proof (proj1 (VC X lk Hl n) _ _ _ K _ E) as C.
  pose proof (peg_complete X lk Hl c t v T K) as Q. pose proof (repV_ruling _ C) as R. apply (acts_exact X lk Hl c t v _ K) in R.
  do 2 eexists. split; [exact R|]. split; [exact Q|].
  destruct (val X lk v t c) as [|[]|]; cbn; auto; destruct C as [C1 C2]; try congruence. destruct (C2 _ eq_refl expected); auto.
Qed.

(** [[((int, int), tstr) // bool]] accepts [1, 2, true]: the inner group takes 1 and 2,
    the outer group fails and puts back nothing, so [bool] finds [true]. *)
Example ex_C66_steps :
  acts demo_ext no_rules (AskArr initial_ctx (NGroup [int_t; int_t]) [vi 1; vi 2; VBool true]) (DidA Matched [] [VBool true]) /\
  acts demo_ext no_rules (AskArr initial_ctx (NGroup [NGroup [int_t; int_t]; tstr_t]) [vi 1; vi 2; VBool true]) (DidA (Missed (txt "tstr")) [] [VBool true]) /\
  acts demo_ext no_rules (AskType initial_ctx untame_schema (VArray [vi 1; vi 2; VBool true])) Accept /\
  acts demo_ext no_rules (AskType initial_ctx untame_schema (VArray [vi 1; VBool true])) (Reject (txt "choice of 2")).
Proof.
  assert (Hl : forall name e, no_rules name = inr e -> is_fatal e = true) by (apply basic_fatal).
  assert (W : Forall wf_value [vi 1; vi 2; VBool true]) by (repeat constructor; cbn; lia).
  split; [|split; [|split]].
  - apply (C66_array_member _ _ _ _ _ []); auto. apply (aval_run _ _ 10). reflexivity.
  - apply C66_array_member; auto. apply (aval_run _ _ 10). reflexivity.
  - apply (C66_exact demo_ext no_rules _ (RuleDef [] untame_schema)); auto; [wf|].
    rewrite run_validate_val by auto. erewrite (val_run _ _ 10) by reflexivity. reflexivity.
  - apply (C66_exact demo_ext no_rules _ (RuleDef [] untame_schema)); auto; [wf|].
    rewrite run_validate_val by auto. erewrite (val_run _ _ 10) by reflexivity. reflexivity.
Qed.
(** A map: [((1: int), 2: tstr) // (2: int)] on {1: 5, 2: 6} loses entry 1 and takes entry 2;
    a cut entry whose value is wrong stops the choice, but only up to the enclosing group. *)
Example ex_C66_map : let es := [(vi 1, vi 5); (vi 2, vi 6)] in
  acts demo_ext no_rules (AskMap initial_ctx (NChoice [NGroup [NGroup [NKeyValue (lit_i 1) int_t true]; NKeyValue (lit_i 2) tstr_t false];
     NGroup [NKeyValue (lit_i 2) int_t false]]) es) (DidM Matched [] []) /\
  acts demo_ext no_rules (AskMap initial_ctx (NKeyValue (lit_i 2) tstr_t true) es) (DidM (Stopped (txt "tstr")) [] es) /\
  acts demo_ext no_rules (AskMap initial_ctx (NGroup [NKeyValue (lit_i 1) int_t true; NKeyValue (lit_i 2) tstr_t true]) es) (DidM (Missed (txt "tstr")) [] es).
Proof.
  assert (Hl : forall name e, no_rules name = inr e -> is_fatal e = true) by (apply basic_fatal).
  cbn zeta. assert (W : wf_value (VMap [(vi 1, vi 5); (vi 2, vi 6)])) by wf.
  split; [|split].
  - apply (C66_map_member _ _ _ _ _ []); auto. apply (mval_run _ _ 12). reflexivity.
  - apply C66_map_member; auto. apply (mval_run _ _ 12). reflexivity.
  - apply C66_map_member; auto. apply (mval_run _ _ 12). reflexivity.
Qed.

Print Assumptions C66_exact.
Print Assumptions C66_answered.
Print Assumptions C66_deterministic.
Print Assumptions C66_array_member.
Print Assumptions C66_map_member.
Print Assumptions C66_json.
Print Assumptions C66_cbor.
Print Assumptions C66_tame.
