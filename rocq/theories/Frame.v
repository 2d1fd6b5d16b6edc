(** What a member does to the remaining data does not depend on the snapshots
    taken before: they are only written to. *)
From Coq Require Import List Bool ZArith NArith String Lia Arith.
From Verif Require Import Base Util Data Value Convert Ivt Scalar Validate Unfold Mono ArrayInv.
Import ListNotations.

Section Uniform.
Context {D E St : Type}.
Variable mk : D -> list (list E) -> St.

(** Whatever the snapshots: out of fuel, or a panic, or the same result, the same
    remaining data and the same items added to the innermost snapshot. *)
Definition uniform {A} (f : St -> option (res A * St)) : Prop :=
  forall a, (forall S, f (mk a S) = None) \/
            (forall S, exists s, f (mk a S) = Some (Panic, s)) \/
            (exists r a' d, r <> Panic /\ forall S, f (mk a S) = Some (r, mk a' (push d S))).

Lemma uniform_ret {A} (r : res A) : uniform (fun s => Some (r, s)).
Proof.
  intros a. right. destruct r as [u|e|]; [right|right|left; eauto]; do 3 eexists;
    (split; [|intros; erewrite <- push_nil at 1; reflexivity]); discriminate.
Qed.
Lemma uniform_none {A} : uniform (fun _ => @None (res A * St)).
Proof. intros a. left. auto. Qed.

Lemma uniform_bind {A B} (f : St -> option (res A * St)) (k : res A -> St -> option (res B * St)) :
  uniform f -> (forall r, uniform (k r)) -> (forall s, exists s', k Panic s = Some (Panic, s')) ->
  uniform (fun s => match f s with None => None | Some (r, s') => k r s' end).
Proof.
  intros H Hk Hp a. destruct (H a) as [Hn|[Hn|(r & a' & d & Nr & Hr)]].
  - left. intros. rewrite Hn. auto.
  - right. left. intros S. destruct (Hn S) as [s ->]. apply Hp.
  - destruct (Hk r a') as [Hn|[Hn|(r2 & a2 & d2 & N2 & H2)]].
    + left. intros. rewrite Hr. auto.
    + right. left. intros. rewrite Hr. auto.
    + right. right. exists r2, a2, (d ++ d2). split; auto. intros. rewrite Hr, H2, push_push. auto.
Qed.
Lemma uniform_ext {A} (f g : St -> option (res A * St)) : (forall s, f s = g s) -> uniform f -> uniform g.
Proof.
  intros He H a. destruct (H a) as [Hn|[Hn|(r & a' & d & Nr & Hr)]].
  - left. intros. rewrite <- He. auto.
  - right. left. intros. rewrite <- He. auto.
  - right. right. exists r, a', d. split; auto. intros. rewrite <- He. auto.
Qed.

Lemma uniform_seq (f : node -> St -> option (res unit * St)) ms :
  (forall m, In m ms -> uniform (f m)) -> uniform (seq_loop f ms).
Proof.
  induction ms as [|m ms IH]; intros H; [apply uniform_ret|].
  eapply (uniform_ext (fun s => match f m s with None => None | Some (r, s') =>
    match r with Ok _ => seq_loop f ms s' | Err e => Some (Err e, s') | Panic => Some (Panic, s') end end)).
  { intros s. cbn. destruct (f m s) as [[[]]|]; auto. }
  apply (uniform_bind (f m) (fun r s' => match r with Ok _ => seq_loop f ms s' | Err e => Some (Err e, s') | Panic => Some (Panic, s') end)).
  - apply H. left; auto.
  - intros []; try apply uniform_ret. apply IH. intros; apply H; right; auto.
  - eauto.
Qed.

Lemma uniform_try stop (f : node -> St -> option (res unit * St)) os fin :
  (forall m, In m os -> uniform (f m)) -> uniform (try_loop stop f os fin).
Proof.
  induction os as [|m os IH]; intros H; [apply uniform_ret|].
  set (k := fun (r : res unit) s' => match r with Ok _ => Some (Ok tt, s') | Err e => if stop e then Some (Err e, s') else try_loop stop f os fin s' | Panic => Some (Panic, s') end).
  eapply (uniform_ext (fun s => match f m s with None => None | Some (r, s') => k r s' end)).
  { intros s. cbn. destruct (f m s) as [[[]]|]; auto. }
  apply uniform_bind.
  - apply H. left; auto.
  - intros [u|e|]; unfold k; try apply uniform_ret. destruct (stop e); [apply uniform_ret|]. apply IH. intros; apply H; right; auto.
  - cbn. eauto.
Qed.

Lemma uniform_occur (f : St -> option (res unit * St)) up n : forall count,
  uniform f -> uniform (occur_loop n f up count).
Proof.
  induction n as [|n IH]; intros count H; [apply uniform_none|].
  set (k := fun (r : res unit) s' => match r with Ok _ => if N.leb up (count + 1) then Some (Ok (count + 1)%N, s') else occur_loop n f up (count + 1) s'
     | Err e => if is_mismatch e then Some (Ok count, s') else Some (Err e, s') | Panic => Some (Panic, s') end).
  eapply (uniform_ext (fun s => match f s with None => None | Some (r, s') => k r s' end)).
  { intros s. cbn. destruct (f s) as [[[]]|]; auto. }
  apply uniform_bind; auto.
  - intros [u|e|]; unfold k; try apply uniform_ret.
    + destruct (N.leb up (count + 1)); [apply uniform_ret|apply IH; auto].
    + destruct (is_mismatch e); apply uniform_ret.
  - cbn. eauto.
Qed.
End Uniform.

Section Frame.
Variable X : ext.
Context {C : Type}.
Variable lookup : C -> text -> list node -> res (node * C).

Lemma uniform_value rec nd : uniform WA (validate_array_value X rec nd).
Proof.
  intros a. unfold validate_array_value, wa_peek_front, wa_pop_front; cbn. destruct a as [|v a].
  - right. right. do 3 eexists. split; [|intros; erewrite <- push_nil at 1; reflexivity]. discriminate.
  - destruct (rec v nd) as [[u|e|]|].
    + right. right. exists (Ok tt), a, [v]. split; [discriminate|]. intros [|s S]; auto.
    + right. right. exists (Err e), (v :: a), []. split; [discriminate|]. intros. rewrite push_nil. auto.
    + right. left. eauto.
    + left; auto.
Qed.

Lemma uniform_array_group rec ms : (forall m, In m ms -> uniform WA (rec m)) -> uniform WA (validate_array_group rec ms).
Proof.
  intros H a. unfold validate_array_group, wa_snapshot; cbn.
  destruct (uniform_seq WA rec ms H a) as [Hn|[Hn|(r & a' & d & Nr & Hr)]].
  - left. intros. rewrite Hn. auto.
  - right. left. intros S. destruct (Hn ([] :: S)) as [s ->]. eauto.
  - right. right. destruct r as [u|e|]; [| |congruence].
    + exists (Ok tt), a', []. split; [discriminate|]. intros. rewrite Hr, push_nil. auto.
    + exists (Err e), (d ++ a'), []. split; [discriminate|]. intros. rewrite Hr, push_nil. cbn. rewrite rewind_fold. auto.
Qed.

Lemma uniform_occur_result {D E St} (mk : D -> list (list E) -> St) n step limit e :
  uniform mk step ->
  uniform mk (fun w => let (lower, upper) := limits limit in
    match occur_loop n step upper 0 w with
    | None => None
    | Some (Ok count, w') => if N.ltb count lower then Some (Err e, w') else Some (Ok tt, w')
    | Some (Err e, w') => Some (Err e, w')
    | Some (Panic, w') => Some (Panic, w')
    end).
Proof.
  intros H. destruct (limits limit) as [lo up].
  set (k := fun (r : res N) (s' : St) => match r with Ok count => if N.ltb count lo then Some (Err e, s') else Some (Ok tt, s')
     | Err e => Some (Err e, s') | Panic => Some (Panic, s') end).
  eapply (uniform_ext mk (fun s => match occur_loop n step up 0 s with None => None | Some (r, s') => k r s' end)).
  { intros s. cbn. destruct (occur_loop n step up 0 s) as [[[]]|]; auto. }
  apply uniform_bind; [apply uniform_occur; auto| |cbn; eauto].
  intros [u|e'|]; unfold k; try apply uniform_ret. destruct (N.ltb u lo); apply uniform_ret.
Qed.

Theorem frame_array n : forall m c, uniform WA (fun w => validate_array_member X lookup n m w c).
Proof.
  induction n as [|n IH]; intros m c; [apply uniform_none|].
  eapply uniform_ext; [intros; symmetry; apply validate_array_member_S|].
  destruct m; try apply uniform_value.
  - destruct (lookup c name args) as [[nd' c']|e|]; try apply uniform_ret. apply IH.
  - apply (uniform_try WA is_fatal (fun o w => validate_array_member X lookup n o w c)). intros; apply IH.
  - apply uniform_array_group. intros; apply IH.
  - apply (uniform_occur_result WA). apply IH.
  - destruct (lookup c name args) as [[nd' c']|e|]; try apply uniform_ret.
    unfold validate_array_unwrap. destruct nd'; try apply uniform_ret.
    apply (uniform_seq WA (fun m w => validate_array_member X lookup n m w c')). intros; apply IH.
Qed.

Lemma uniform_keyvalue rec key vl cut : uniform WM (validate_map_keyvalue X rec key vl cut).
Proof.
  intros m. unfold validate_map_keyvalue.
  assert (K : forall S, validate_map_key X rec key (WM m S) = validate_map_key X rec key (WM m [])).
  { intros. unfold validate_map_key, map_search, map_search_literal, wm_peek_at. destruct key; auto. }
  destruct (validate_map_key X rec key (WM m [])) as [[[wk wv]|e|]|] eqn:E.
  - destruct (rec wv vl) as [[u|e|]|] eqn:R.
    + unfold wm_remove; cbn. destruct (bt_remove wk m) as [[v|] m'] eqn:B.
      * right. right. exists (Ok tt), m', [(wk, v)]. split; [discriminate|]. intros S. rewrite K, R, B. destruct S; auto.
      * right. left. intros S. rewrite K, R, B. eauto.
    + right. right. exists (Err (match cut, e with true, EMismatch t => EMapCut t | _, _ => e end)), m, [].
      split; [discriminate|]. intros S. rewrite K, R, push_nil. destruct cut, e; auto.
    + right. left. intros S. rewrite K, R. eauto.
    + left. intros S. rewrite K, R. auto.
  - right. right. exists (Err e), m, []. split; [discriminate|]. intros S. rewrite K, push_nil. auto.
  - right. left. intros S. rewrite K. eauto.
  - left. intros S. rewrite K. auto.
Qed.

Lemma uniform_map_group rec ms : (forall m, In m ms -> uniform WM (rec m)) -> uniform WM (validate_map_group rec ms).
Proof.
  intros H a. unfold validate_map_group, wm_snapshot; cbn.
  destruct (uniform_seq WM rec ms H a) as [Hn|[Hn|(r & a' & d & Nr & Hr)]].
  - left. intros. rewrite Hn. auto.
  - right. left. intros S. destruct (Hn ([] :: S)) as [s ->]. eauto.
  - right. right. destruct r as [u|e|]; [| |congruence].
    + exists (Ok tt), a', []. split; [discriminate|]. intros. rewrite Hr, push_nil. auto.
    + exists (Err (erase_mapcut e)), (bt_extend a' d), []. split; [discriminate|]. intros. rewrite Hr, push_nil. auto.
Qed.

Theorem frame_map n :
  (forall m c, uniform WM (fun w => validate_map_member X lookup n m w c)) /\
  (forall name args c, uniform WM (fun w => validate_map_choiceify X lookup n name args w c)).
Proof.
  induction n as [|n [IHm IHc]]; [split; intros; apply uniform_none|].
  assert (MC : forall c ms, uniform WM (fun w => validate_map_choiceify_members
       (fun m w => validate_map_member X lookup n m w c)
       (fun name args w => validate_map_choiceify X lookup n name args w c) ms w)).
  { intros c ms. unfold validate_map_choiceify_members.
    apply (uniform_try WM (fun e => negb (is_mismatch e))
      (fun item => match item with
       | NKeyValue _ v _ => fun w => validate_map_member X lookup n v w c
       | NRule name args => fun w => validate_map_choiceify X lookup n name args w c
       | _ => fun w => validate_map_member X lookup n item w c
       end)). intros [] _; try apply IHm; try apply IHc. }
  split.
  - intros m c. eapply uniform_ext; [intros; symmetry; apply validate_map_member_S|].
    destruct m; try apply uniform_ret.
    + destruct (lookup c name args) as [[nd' c']|e|]; try apply uniform_ret. apply IHm.
    + apply (uniform_try WM _ (fun o w => validate_map_member X lookup n o w c)). intros; apply IHm.
    + apply uniform_map_group. intros; apply IHm.
    + apply uniform_keyvalue.
    + apply (uniform_occur_result WM). apply IHm.
    + destruct (lookup c name args) as [[nd' c']|e|]; try apply uniform_ret.
      unfold validate_map_unwrap. destruct nd'; try apply uniform_ret.
      apply (uniform_seq WM (fun m w => validate_map_member X lookup n m w c')). intros; apply IHm.
    + apply IHc.
    + apply (uniform_try WM _ (fun o w => validate_map_member X lookup n o w c)). intros; apply IHm.
  - intros name args c. eapply uniform_ext; [intros; symmetry; apply validate_map_choiceify_S|].
    destruct (lookup c name args) as [[nd' c']|e|]; try apply uniform_ret.
    destruct nd'; try apply uniform_ret; [apply IHc|apply MC].
Qed.
End Frame.
