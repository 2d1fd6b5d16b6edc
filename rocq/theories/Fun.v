(** Fuel-free versions of the recursive functions of the validator, defined from
    the totality theorem, with their recursion equations.  [val] is what the
    Rust function [validate] computes, whatever the fuel. *)
From Coq Require Import List Bool ZArith NArith String Lia Arith ConstructiveEpsilon.
From Verif Require Import Base Util Data Value Convert Ivt Scalar Validate Unfold Mono Total SpecBase.
Import ListNotations.

Lemma limits_bounds o : limits o = bounds o.
Proof. destruct o; reflexivity. Qed.

(** * Evaluation of a fuelled computation that is known to be defined *)

Definition eval_sig {A} (F : nat -> option A) (D : Def F) : {r : A | exists n, F n = Some r}.
Proof.
  assert (E : exists n, F n <> None).
  { destruct D as (n & r & H). exists n. congruence. }
  apply constructive_indefinite_ground_description_nat in E.
  - destruct E as [n Hn]. destruct (F n) as [r|] eqn:H; [|congruence].
    exists r. exists n. exact H.
  - intros n. destruct (F n); [left; congruence|right; congruence].
Qed.

Definition eval {A} (F : nat -> option A) (D : Def F) : A := proj1_sig (eval_sig F D).

Lemma eval_spec {A} (F : nat -> option A) D : exists n, F n = Some (eval F D).
Proof. exact (proj2_sig (eval_sig F D)). Qed.

Lemma eval_eq {A} (F : nat -> option A) D n r :
  monof F -> F n = Some r -> eval F D = r.
Proof.
  intros M H. destruct (eval_spec F D) as (m & E).
  assert (F (Nat.max n m) = Some r) by (eapply le_opt_some; [apply M|exact H]; lia).
  assert (F (Nat.max n m) = Some (eval F D)) by (eapply le_opt_some; [apply M|exact E]; lia).
  congruence.
Qed.

(** * Fuel-free loops *)

(** Try alternatives in order on a mutable state. *)
Fixpoint tries {St} (stop : verror -> bool) (f : node -> St -> res unit * St)
  (os : list node) (final : verror) (s : St) : res unit * St :=
  match os with
  | [] => (Err final, s)
  | o :: os' =>
      match f o s with
      | (Ok _, s') => (Ok tt, s')
      | (Err e, s') => if stop e then (Err e, s') else tries stop f os' final s'
      | (Panic, s') => (Panic, s')
      end
  end.

Fixpoint tries_pure (stop : verror -> bool) (f : node -> res unit) (os : list node)
  (final : verror) : res unit :=
  match os with
  | [] => Err final
  | o :: os' =>
      match f o with
      | Ok _ => Ok tt
      | Err e => if stop e then Err e else tries_pure stop f os' final
      | Panic => Panic
      end
  end.

(** Members one after the other, stopping at the first error. *)
Fixpoint seqs {St} (f : node -> St -> res unit * St) (ms : list node) (s : St) : res unit * St :=
  match ms with
  | [] => (Ok tt, s)
  | m :: ms' =>
      match f m s with
      | (Ok _, s') => seqs f ms' s'
      | (Err e, s') => (Err e, s')
      | (Panic, s') => (Panic, s')
      end
  end.

Fixpoint searches (f : value -> res unit) (l : list (value * value)) (final : verror)
  : res (value * value) :=
  match l with
  | [] => Err final
  | (k, v) :: l' =>
      match f k with
      | Ok _ => Ok (k, v)
      | Err _ => searches f l' final
      | Panic => Panic
      end
  end.

Lemma occ_def {St} (f : St -> res unit * St) upper count s :
  Def (fun n => occur_loop n (fun s => Some (f s)) upper count s).
Proof.
  apply (Def_occur (fun (n : nat) (nd : node) s => Some (f s)) ltac:(intros m s' n k H; apply le_opt_refl)
           (NPrelude PAny)).
  intros; apply Def_const.
Qed.

(** The occurrence loop. *)
Definition occ {St} (f : St -> res unit * St) upper count s : res N * St :=
  eval _ (occ_def f upper count s).

Lemma occ_mono {St} (f : St -> res unit * St) upper count s :
  monof (fun n => occur_loop n (fun s => Some (f s)) upper count s).
Proof. intros n m H. apply occur_loop_mono; auto with mono. Qed.

Lemma occ_eq {St} (f : St -> res unit * St) upper count s :
  occ f upper count s =
  match f s with
  | (Ok _, s') =>
      if N.leb upper (count + 1) then (Ok (count + 1)%N, s') else occ f upper (count + 1)%N s'
  | (Err e, s') => if is_mismatch e then (Ok count, s') else (Err e, s')
  | (Panic, s') => (Panic, s')
  end.
Proof.
  unfold occ at 1. destruct (f s) as [[u|e|] s'] eqn:E.
  - destruct (N.leb upper (count + 1)) eqn:L.
    + eapply (eval_eq _ _ 1); [apply occ_mono|]. cbn. rewrite E, L. reflexivity.
    + destruct (eval_spec _ (occ_def f upper (count + 1)%N s')) as (n & H).
      eapply (eval_eq _ _ (S n)); [apply occ_mono|]. cbn [occur_loop]. rewrite E, L. exact H.
  - destruct (is_mismatch e) eqn:L;
      (eapply (eval_eq _ _ 1); [apply occ_mono|]; cbn; rewrite E, L; reflexivity).
  - eapply (eval_eq _ _ 1); [apply occ_mono|]. cbn. rewrite E. reflexivity.
Qed.

Section Fun.
Variable X : ext.
Variable lk : lookup_context.

(** * The functions *)

Definition val (v : value) (nd : node) (c : ctx) : res unit :=
  eval _ (tV X lk c nd (term_all X lk c nd) v).
Definition aval (m : node) (w : warray) (c : ctx) : res unit * warray :=
  eval _ (tA X lk c m (term_all X lk c m) w).
Definition mval (m : node) (w : wmap) (c : ctx) : res unit * wmap :=
  eval _ (tM X lk c m (term_all X lk c m) w).
Definition deref (nd : node) (c : ctx) : res literal :=
  eval _ (tD X lk c nd (term_all X lk c nd)).
Definition chase {R} (f : node -> res R) (nd : node) (c : ctx) : res R :=
  eval _ (tCR X lk c nd (term_all X lk c nd) R f).

Lemma ch_def name args v c : Def (fun n => validate_choiceify X (lookup_rule lk) n name args v c).
Proof. exact (tCT X lk c (NRule name args) (term_all X lk c _) v). Qed.
Lemma mch_def name args w c : Def (fun n => validate_map_choiceify X (lookup_rule lk) n name args w c).
Proof. exact (tMCT X lk c (NRule name args) (term_all X lk c _) w). Qed.
Definition chval (name : text) (args : list node) (v : value) (c : ctx) : res unit :=
  eval _ (ch_def name args v c).
Definition mchval (name : text) (args : list node) (w : wmap) (c : ctx) : res unit * wmap :=
  eval _ (mch_def name args w c).

(** src/validate.rs 141-159, fuel-free. *)
Definition run_validate (v : value) (def : rule_def) : res unit :=
  match rd_parms def with
  | _ :: _ => Err EGenericError
  | [] => val v (rd_node def) initial_ctx
  end.

(** Enough fuel computes exactly these functions. *)
Lemma val_run n v nd c r : validate X (lookup_rule lk) n v nd c = Some r -> val v nd c = r.
Proof. intros H. eapply eval_eq; [apply mV|exact H]. Qed.
Lemma aval_run n m w c r : validate_array_member X (lookup_rule lk) n m w c = Some r -> aval m w c = r.
Proof. intros H. eapply eval_eq; [apply mA|exact H]. Qed.
Lemma mval_run n m w c r : validate_map_member X (lookup_rule lk) n m w c = Some r -> mval m w c = r.
Proof. intros H. eapply eval_eq; [apply mM|exact H]. Qed.
Lemma chval_run n name args v c r : validate_choiceify X (lookup_rule lk) n name args v c = Some r -> chval name args v c = r.
Proof. intros H. eapply eval_eq; [apply mC|exact H]. Qed.
Lemma mchval_run n name args w c r : validate_map_choiceify X (lookup_rule lk) n name args w c = Some r -> mchval name args w c = r.
Proof. intros H. eapply eval_eq; [apply mMC|exact H]. Qed.
Lemma deref_run n nd c r : deref_range_rule (lookup_rule lk) n nd c = Some r -> deref nd c = r.
Proof. intros H. eapply eval_eq; [apply mD|exact H]. Qed.
Lemma chase_run {R} n (f : node -> res R) nd c r : chase_rules (lookup_rule lk) n f nd c = Some r -> chase f nd c = r.
Proof. intros H. eapply eval_eq; [apply mCR|exact H]. Qed.

Lemma val_spec v nd c : exists n, validate X (lookup_rule lk) n v nd c = Some (val v nd c).
Proof. apply eval_spec. Qed.
Lemma aval_spec m w c : exists n, validate_array_member X (lookup_rule lk) n m w c = Some (aval m w c).
Proof. apply eval_spec. Qed.
Lemma mval_spec m w c : exists n, validate_map_member X (lookup_rule lk) n m w c = Some (mval m w c).
Proof. apply eval_spec. Qed.
Lemma chval_spec name args v c : exists n, validate_choiceify X (lookup_rule lk) n name args v c = Some (chval name args v c).
Proof. apply eval_spec. Qed.
Lemma mchval_spec name args w c : exists n, validate_map_choiceify X (lookup_rule lk) n name args w c = Some (mchval name args w c).
Proof. apply eval_spec. Qed.
Lemma deref_spec nd c : exists n, deref_range_rule (lookup_rule lk) n nd c = Some (deref nd c).
Proof. apply eval_spec. Qed.
Lemma chase_spec {R} (f : node -> res R) nd c : exists n, chase_rules (lookup_rule lk) n f nd c = Some (chase f nd c).
Proof. apply eval_spec. Qed.

Theorem run_validate_run n v def r : do_validate X lk n v def = Some r -> run_validate v def = r.
Proof.
  unfold do_validate, run_validate. destruct (rd_parms def); [apply val_run|].
  intros [= <-]; reflexivity.
Qed.
Theorem run_validate_spec v def : exists n, do_validate X lk n v def = Some (run_validate v def).
Proof.
  unfold do_validate, run_validate. destruct (rd_parms def); [apply val_spec|].
  exists 0; reflexivity.
Qed.

(** * Running the loops with enough fuel *)

Lemma tries_run {St} (F : nat -> node -> St -> option (res unit * St)) f stop os fin s :
  (forall m s, monof (fun n => F n m s)) ->
  (forall m s, exists n, F n m s = Some (f m s)) ->
  exists n, try_loop stop (F n) os fin s = Some (tries stop f os fin s).
Proof.
  intros M H. revert s; induction os as [|o os IH]; intros s; cbn; [exists 0; reflexivity|].
  destruct (H o s) as (n & E). destruct (f o s) as [r s'].
  destruct (IH s') as (m & E').
  exists (Nat.max n m).
  rewrite (le_opt_some _ _ _ (M o s n (Nat.max n m) ltac:(lia)) E).
  destruct r; auto. destruct (stop e); auto.
  eapply le_opt_some; [apply try_loop_mono|exact E'].
  intros; apply (M m0 s0 m); lia.
Qed.

Lemma tries_pure_run (F : nat -> node -> option (res unit)) f stop os fin :
  (forall m, monof (fun n => F n m)) ->
  (forall m, exists n, F n m = Some (f m)) ->
  exists n, try_loop_pure stop (F n) os fin = Some (tries_pure stop f os fin).
Proof.
  intros M H. induction os as [|o os IH]; cbn; [exists 0; reflexivity|].
  destruct (H o) as (n & E). destruct IH as (m & E').
  exists (Nat.max n m).
  rewrite (le_opt_some _ _ _ (M o n (Nat.max n m) ltac:(lia)) E).
  destruct (f o); auto. destruct (stop e); auto.
  eapply le_opt_some; [apply try_loop_pure_mono|exact E'].
  intros; apply (M o0 m); lia.
Qed.

Lemma seqs_run {St} (F : nat -> node -> St -> option (res unit * St)) f ms s :
  (forall m s, monof (fun n => F n m s)) ->
  (forall m s, exists n, F n m s = Some (f m s)) ->
  exists n, seq_loop (F n) ms s = Some (seqs f ms s).
Proof.
  intros M H. revert s; induction ms as [|o os IH]; intros s; cbn; [exists 0; reflexivity|].
  destruct (H o s) as (n & E). destruct (f o s) as [r s'].
  destruct (IH s') as (m & E').
  exists (Nat.max n m).
  rewrite (le_opt_some _ _ _ (M o s n (Nat.max n m) ltac:(lia)) E).
  destruct r; auto.
  eapply le_opt_some; [apply seq_loop_mono|exact E'].
  intros; apply (M m0 s0 m); lia.
Qed.

Lemma searches_run (F : nat -> value -> option (res unit)) f l fin :
  (forall m, monof (fun n => F n m)) ->
  (forall m, exists n, F n m = Some (f m)) ->
  exists n, map_search_loop (F n) l fin = Some (searches f l fin).
Proof.
  intros M H. induction l as [|[k v] l IH]; cbn; [exists 0; reflexivity|].
  destruct (H k) as (n & E). destruct IH as (m & E').
  exists (Nat.max n m).
  rewrite (le_opt_some _ _ _ (M k n (Nat.max n m) ltac:(lia)) E).
  destruct (f k); auto.
  eapply le_opt_some; [apply map_search_loop_mono|exact E'].
  intros; apply (M o m); lia.
Qed.

Lemma occ_run {St} (F : nat -> St -> option (res unit * St)) f upper count s :
  (forall s, monof (fun n => F n s)) ->
  (forall s, exists n, F n s = Some (f s)) ->
  exists n, occur_loop n (F n) upper count s = Some (occ f upper count s).
Proof.
  intros M H.
  remember (N.to_nat (upper - count)) as k eqn:Hk.
  revert count s Hk; induction k as [k IH] using lt_wf_ind; intros count s Hk.
  rewrite occ_eq. destruct (H s) as (n & E). destruct (f s) as [r s'].
  destruct (N.leb upper (count + 1)) eqn:L.
  - exists (S n). cbn.
    rewrite (le_opt_some _ _ _ (M s n (S n) ltac:(lia)) E), L.
    destruct r; auto. destruct (is_mismatch e); auto.
  - apply N.leb_gt in L.
    destruct (IH (N.to_nat (upper - (count + 1))) ltac:(lia) (count + 1)%N s' eq_refl) as (m & E').
    exists (S (Nat.max n m)). cbn.
    rewrite (le_opt_some _ _ _ (M s n (S (Nat.max n m)) ltac:(lia)) E).
    destruct (N.leb_spec upper (count + 1)) as [L'|L']; [lia|].
    destruct r; auto; [|destruct (is_mismatch e); auto].
    eapply le_opt_some; [|exact E']. apply occur_loop_mono; [lia|].
    intros; apply (M s0 m); lia.
Qed.

(** * Bodies of the member functions, fuel-free (see Validate.v for citations) *)

Definition array_value (nd : node) (w : warray) (c : ctx) : res unit * warray :=
  match wa_peek_front w with
  | Some v =>
      match val v nd c with
      | Ok _ => match wa_pop_front w with Some w' => (Ok tt, w') | None => (Panic, w) end
      | Err e => (Err e, w)
      | Panic => (Panic, w)
      end
  | None => (Err (mismatch (txt "array element " ++ show_node X nd)), w)
  end.

Definition occur_result {St} (lower : N) (short : verror) (r : res N * St) : res unit * St :=
  match r with
  | (Ok count, w') => if N.ltb count lower then (Err short, w') else (Ok tt, w')
  | (Err e, w') => (Err e, w')
  | (Panic, w') => (Panic, w')
  end.

Definition array_occur (limit : occur_limit) (nd : node) (w : warray) (c : ctx) :=
  occur_result (fst (bounds limit))
    (mismatch (txt "more array element [" ++ show_occur X limit nd ++ txt "]"))
    (occ (fun w => aval nd w c) (snd (bounds limit)) 0 w).

Definition array_unwrap (nd : node) (w : warray) (c : ctx) : res unit * warray :=
  match nd with
  | NArray members => seqs (fun m w => aval m w c) members w
  | _ => (Err (mismatch (txt "unwrap array")), w)
  end.

Definition array_group (ms : list node) (w : warray) (c : ctx) : res unit * warray :=
  match seqs (fun m w => aval m w c) ms (wa_snapshot w) with
  | (Ok _, w') => match wa_commit w' with Some w'' => (Ok tt, w'') | None => (Panic, w') end
  | (Err e, w') => match wa_rewind w' with Some w'' => (Err e, w'') | None => (Panic, w') end
  | (Panic, w') => (Panic, w')
  end.

Definition array_all (ms : list node) (v : value) (c : ctx) : res unit :=
  match v with
  | VArray a =>
      match seqs (fun m w => aval m w c) ms (wa_new a) with
      | (Ok _, w) =>
          match wa_array w with
          | [] => Ok tt
          | _ :: _ => Err (mismatch (txt "shorter array"))
          end
      | (Err e, _) => Err e
      | (Panic, _) => Panic
      end
  | _ => Err (mismatch (txt "array"))
  end.

Definition map_key (nd : node) (w : wmap) (c : ctx) : res (value * value) :=
  match nd with
  | NLiteral l => map_search_literal X l w
  | _ => searches (fun k => val k nd c) (wm_map w) (mismatch (txt "map{" ++ show_node X nd ++ txt "}"))
  end.

Definition map_keyvalue (key vl : node) (cut : bool) (w : wmap) (c : ctx) : res unit * wmap :=
  match map_key key w c with
  | Err e => (Err e, w)
  | Panic => (Panic, w)
  | Ok (wk, wv) =>
      match val wv vl c with
      | Ok _ => match wm_remove wk w with Some w' => (Ok tt, w') | None => (Panic, w) end
      | Err e =>
          match cut, e with
          | true, EMismatch m => (Err (EMapCut m), w)
          | _, _ => (Err e, w)
          end
      | Panic => (Panic, w)
      end
  end.

Definition map_occur (limit : occur_limit) (nd : node) (w : wmap) (c : ctx) :=
  occur_result (fst (bounds limit))
    (mismatch (txt "map{" ++ show_occur X limit nd ++ txt "}]"))
    (occ (fun w => mval nd w c) (snd (bounds limit)) 0 w).

Definition map_unwrap (nd : node) (w : wmap) (c : ctx) : res unit * wmap :=
  match nd with
  | NMap members => seqs (fun m w => mval m w c) members w
  | _ => (Err (mismatch (txt "unwrap map")), w)
  end.

Definition map_group (ms : list node) (w : wmap) (c : ctx) : res unit * wmap :=
  match seqs (fun m w => mval m w c) ms (wm_snapshot w) with
  | (Ok _, w') => match wm_commit w' with Some w'' => (Ok tt, w'') | None => (Panic, w') end
  | (Err e, w') =>
      match wm_rewind w' with Some w'' => (Err (erase_mapcut e), w'') | None => (Panic, w') end
  | (Panic, w') => (Panic, w')
  end.

Definition map_all (ms : list node) (v : value) (c : ctx) : res unit :=
  match v with
  | VMap m =>
      match seqs (fun m w => mval m w c) ms (wm_new m) with
      | (Ok _, w) =>
          match wm_map w with
          | [] => Ok tt
          | _ :: _ => Err (mismatch (txt "shorter map"))
          end
      | (Err e, _) => Err (erase_mapcut e)
      | (Panic, _) => Panic
      end
  | _ => Err (mismatch (txt "map"))
  end.

Definition choiceify_item (v : value) (c : ctx) (item : node) : res unit :=
  match item with
  | NKeyValue _ vl _ => val v vl c
  | NRule name args => chval name args v c
  | _ => val v item c
  end.

Definition map_choiceify_item (c : ctx) (item : node) : wmap -> res unit * wmap :=
  match item with
  | NKeyValue _ vl _ => fun w => mval vl w c
  | NRule name args => fun w => mchval name args w c
  | _ => fun w => mval item w c
  end.

Definition control_val (ctl : control node) (v : value) (c : ctx) : res unit :=
  match ctl with
  | CtlSize t s =>
      bind_res (chase (normalize_size_range X) s c) (fun l => chase (size_target X l v) t c)
  | CtlLt t s => bind_res (chase (cmp_limit X (txt "lt")) s c) (fun l => chase (lt_target X l v) t c)
  | CtlLe t s => bind_res (chase (cmp_limit X (txt "le")) s c) (fun l => chase (le_target X l v) t c)
  | CtlGt t s => bind_res (chase (cmp_limit X (txt "gt")) s c) (fun l => chase (gt_target X l v) t c)
  | CtlGe t s => bind_res (chase (cmp_limit X (txt "ge")) s c) (fun l => chase (ge_target X l v) t c)
  | CtlRegexp re => validate_control_regexp X re v
  | CtlCbor nd =>
      match v with
      | VBytes b =>
          match cbor_decode X b with
          | inr msg => Err (EValueError msg)
          | inl cv => bind_res (of_cbor cv) (fun nested => val nested nd c)
          end
      | _ => Err (mismatch (txt "Bytes"))
      end
  end.

(** * Recursion equations *)

Ltac step E n := eapply (E (S n)).
Ltac leaf E := eapply (E 1); reflexivity.

Lemma deref_eq nd c :
  deref nd c =
  match nd with
  | NLiteral l => Ok l
  | NRule name args => bind_res (lookup_rule lk c name args) (fun p => deref (fst p) (snd p))
  | _ => Err (EStructural (txt "confusing type on range operator"))
  end.
Proof.
  destruct nd; try (leaf deref_run).
  destruct (lookup_rule lk c name args) as [[nd' c']|e|] eqn:L; cbn.
  - destruct (deref_spec nd' c') as (n & H). eapply (deref_run (S n)). cbn. rewrite L. exact H.
  - eapply (deref_run 1). cbn. rewrite L. reflexivity.
  - eapply (deref_run 1). cbn. rewrite L. reflexivity.
Qed.

Lemma chase_eq {R} (f : node -> res R) nd c :
  chase f nd c =
  match nd with
  | NRule name args => bind_res (lookup_rule lk c name args) (fun p => chase f (fst p) (snd p))
  | _ => f nd
  end.
Proof.
  destruct nd; try (eapply (chase_run 1); reflexivity).
  destruct (lookup_rule lk c name args) as [[nd' c']|e|] eqn:L; cbn.
  - destruct (chase_spec f nd' c') as (n & H). eapply (chase_run (S n)). cbn. rewrite L. exact H.
  - eapply (chase_run 1). cbn. rewrite L. reflexivity.
  - eapply (chase_run 1). cbn. rewrite L. reflexivity.
Qed.

Lemma obind_run {A B} (F : nat -> option (res A)) (K : nat -> A -> option (res B)) a k :
  monof F -> (forall x, monof (fun n => K n x)) ->
  (exists n, F n = Some a) -> (forall x, exists n, K n x = Some (k x)) ->
  exists n, obind (F n) (K n) = Some (bind_res a k).
Proof.
  intros MF MK (n & E) HK. destruct a as [x|e|].
  - destruct (HK x) as (m & E'). exists (Nat.max n m).
    rewrite (le_opt_some _ _ _ (MF n (Nat.max n m) ltac:(lia)) E).
    exact (le_opt_some _ _ _ (MK x m (Nat.max n m) ltac:(lia)) E').
  - exists n. rewrite E. reflexivity.
  - exists n. rewrite E. reflexivity.
Qed.

Lemma control_run ctl v c :
  exists n, validate_control X (lookup_rule lk) n (fun v' nd' => validate X (lookup_rule lk) n v' nd' c) ctl v c
            = Some (control_val ctl v c).
Proof.
  destruct ctl as [t s|t s|t s|t s|t s|re|t]; cbn [validate_control control_val].
  1-5: match goal with
        | |- exists n, validate_control_size _ _ _ _ _ _ _ = _ => unfold validate_control_size
        | |- exists n, validate_control_lt _ _ _ _ _ _ _ = _ => unfold validate_control_lt
        | |- exists n, validate_control_le _ _ _ _ _ _ _ = _ => unfold validate_control_le
        | |- exists n, validate_control_gt _ _ _ _ _ _ _ = _ => unfold validate_control_gt
        | |- exists n, validate_control_ge _ _ _ _ _ _ _ = _ => unfold validate_control_ge
        end;
    (apply (obind_run (fun n => chase_rules (lookup_rule lk) n _ s c) (fun n l => chase_rules (lookup_rule lk) n _ t c));
     [apply (mCR lk) | intros; apply (mCR lk) | apply chase_spec | intros; apply chase_spec]).
  - exists 0; reflexivity.
  - unfold validate_control_cbor. destruct v; try (exists 0; reflexivity).
    destruct (cbor_decode X b); try (exists 0; reflexivity).
    destruct (of_cbor c0) as [nested|e|]; try (exists 0; reflexivity).
    cbn. apply val_spec.
Qed.

Lemma chval_eq name args v c :
  chval name args v c =
  match lookup_rule lk c name args with
  | Ok (NGroup ms, c') => tries_pure is_fatal (choiceify_item v c') ms (choiceify_error ms)
  | Ok (NRule name' args', c') => chval name' args' v c'
  | Ok (_, c') => Err (EStructural (txt "improper choiceify target"))
  | Err e => Err e
  | Panic => Panic
  end.
Proof.
  destruct (lookup_rule lk c name args) as [[nd' c']|e|] eqn:L.
  - destruct nd'; try (eapply (chval_run 1); rewrite validate_choiceify_S, L; reflexivity).
    + destruct (chval_spec name0 args0 v c') as (n & H). eapply (chval_run (S n)).
      rewrite validate_choiceify_S, L. exact H.
    + destruct (tries_pure_run
         (fun n item => match item with
                        | NKeyValue _ vl _ => validate X (lookup_rule lk) n v vl c'
                        | NRule name args => validate_choiceify X (lookup_rule lk) n name args v c'
                        | _ => validate X (lookup_rule lk) n v item c'
                        end) (choiceify_item v c') is_fatal members (choiceify_error members)) as (n & H).
      * intros []; try apply mV. apply mC.
      * intros []; cbn; try apply val_spec. apply chval_spec.
      * eapply (chval_run (S n)). rewrite validate_choiceify_S, L. exact H.
  - eapply (chval_run 1). rewrite validate_choiceify_S, L; reflexivity.
  - eapply (chval_run 1). rewrite validate_choiceify_S, L; reflexivity.
Qed.

Lemma mchval_eq name args w c :
  mchval name args w c =
  match lookup_rule lk c name args with
  | Ok (NGroup ms, c') =>
      tries (fun e => negb (is_mismatch e)) (map_choiceify_item c') ms (choiceify_error ms) w
  | Ok (NRule name' args', c') => mchval name' args' w c'
  | Ok (_, c') => (Err (EStructural (txt "improper map choiceify target")), w)
  | Err e => (Err e, w)
  | Panic => (Panic, w)
  end.
Proof.
  destruct (lookup_rule lk c name args) as [[nd' c']|e|] eqn:L.
  - destruct nd'; try (eapply (mchval_run 1); rewrite validate_map_choiceify_S, L; reflexivity).
    + destruct (mchval_spec name0 args0 w c') as (n & H). eapply (mchval_run (S n)).
      rewrite validate_map_choiceify_S, L. exact H.
    + destruct (tries_run
         (fun n item => match item with
                        | NKeyValue _ vl _ => fun w => validate_map_member X (lookup_rule lk) n vl w c'
                        | NRule name args => fun w => validate_map_choiceify X (lookup_rule lk) n name args w c'
                        | _ => fun w => validate_map_member X (lookup_rule lk) n item w c'
                        end) (map_choiceify_item c') (fun e => negb (is_mismatch e)) members
                        (choiceify_error members) w) as (n & H).
      * intros [] s; try apply mM. apply mMC.
      * intros [] s; cbn; try apply mval_spec. apply mchval_spec.
      * eapply (mchval_run (S n)). rewrite validate_map_choiceify_S, L. exact H.
  - eapply (mchval_run 1). rewrite validate_map_choiceify_S, L; reflexivity.
  - eapply (mchval_run 1). rewrite validate_map_choiceify_S, L; reflexivity.
Qed.

Lemma val_eq v nd c :
  val v nd c =
  match nd with
  | NLiteral l => validate_literal X l v
  | NPrelude p => validate_prelude_type p v
  | NChoice os => tries_pure is_fatal (fun o => val v o c) os (choice_error os)
  | NMap ms => map_all ms v c
  | NArray ms => array_all ms v c
  | NRule name args => bind_res (lookup_rule lk c name args) (fun p => val v (fst p) (snd p))
  | NGroup [m] => val v m c
  | NGroup _ => Err (EUnsupported (txt "standalone group"))
  | NKeyValue _ _ _ => Err (EStructural (txt "unexpected KeyValue"))
  | NOccur _ _ => Err (EStructural (txt "unexpected Occur"))
  | NUnwrap _ _ => Err (EStructural (txt "unexpected Unwrap"))
  | NRange s e incl =>
      bind_res (deref s c) (fun ls =>
      bind_res (deref e c) (fun le => range_compare (show_range X s e incl) ls le incl v))
  | NControl ctl => control_val ctl v c
  | NChoiceify name args => chval name args v c
  | NChoiceifyInline ms => tries_pure is_fatal (choiceify_item v c) ms (choiceify_error ms)
  end.
Proof.
  destruct nd; try (eapply (val_run 1); reflexivity).
  - destruct (lookup_rule lk c name args) as [[nd' c']|e|] eqn:L.
    + destruct (val_spec v nd' c') as (n & H). eapply (val_run (S n)). rewrite validate_S, L. exact H.
    + eapply (val_run 1). rewrite validate_S, L. reflexivity.
    + eapply (val_run 1). rewrite validate_S, L. reflexivity.
  - destruct (tries_pure_run (fun n o => validate X (lookup_rule lk) n v o c) (fun o => val v o c) is_fatal options (choice_error options)) as (n & H).
    + intros; apply mV.
    + intros; apply val_spec.
    + eapply (val_run (S n)). rewrite validate_S. exact H.
  - unfold map_all. destruct v; try (eapply (val_run 1); reflexivity).
    destruct (seqs_run (fun n m w => validate_map_member X (lookup_rule lk) n m w c) (fun m w => mval m w c) members (wm_new m)) as (n & H).
    + intros; apply mM.
    + intros; apply mval_spec.
    + eapply (val_run (S n)). rewrite validate_S. unfold validate_map. rewrite H.
      destruct (seqs _ _ _) as [[u|e|] s]; auto. destruct (wm_map s); auto.
  - unfold array_all. destruct v; try (eapply (val_run 1); reflexivity).
    destruct (seqs_run (fun n m w => validate_array_member X (lookup_rule lk) n m w c) (fun m w => aval m w c) members (wa_new l)) as (n & H).
    + intros; apply mA.
    + intros; apply aval_spec.
    + eapply (val_run (S n)). rewrite validate_S. unfold validate_array. rewrite H.
      destruct (seqs _ _ _) as [[u|e|] s]; auto. destruct (wa_array s); auto.
  - destruct members as [|m [|m' ms]]; try (eapply (val_run 1); reflexivity).
    destruct (val_spec v m c) as (n & H). eapply (val_run (S n)). rewrite validate_S. exact H.
  - destruct (obind_run (fun n => deref_range_rule (lookup_rule lk) n nd1 c)
      (fun n ls => obind (deref_range_rule (lookup_rule lk) n nd2 c) (fun le => Some (range_compare (show_range X nd1 nd2 inclusive) ls le inclusive v)))
      (deref nd1 c) (fun ls =>
      bind_res (deref nd2 c) (fun le => range_compare (show_range X nd1 nd2 inclusive) ls le inclusive v))) as (n & H).
    + apply mD.
    + intros x n m Hn. apply obind_mono; [apply mD; auto|auto with mono].
    + apply deref_spec.
    + intros x. destruct (deref_spec nd2 c) as (m & E). exists m. rewrite E.
      destruct (deref nd2 c); reflexivity.
    + eapply (val_run (S n)). rewrite validate_S. exact H.
  - destruct (control_run c0 v c) as (n & H). eapply (val_run (S n)). rewrite validate_S. exact H.
  - destruct (chval_spec name args v c) as (n & H). eapply (val_run (S n)). rewrite validate_S. exact H.
  - destruct (tries_pure_run
         (fun n item => match item with
                        | NKeyValue _ vl _ => validate X (lookup_rule lk) n v vl c
                        | NRule name args => validate_choiceify X (lookup_rule lk) n name args v c
                        | _ => validate X (lookup_rule lk) n v item c
                        end) (choiceify_item v c) is_fatal members (choiceify_error members)) as (n & H).
    + intros []; try apply mV. apply mC.
    + intros []; cbn; try apply val_spec. apply chval_spec.
    + eapply (val_run (S n)). rewrite validate_S. exact H.
Qed.

Lemma array_value_run nd w c :
  exists n, validate_array_value X (fun v nd => validate X (lookup_rule lk) n v nd c) nd w = Some (array_value nd w c).
Proof.
  unfold validate_array_value, array_value. destruct (wa_peek_front w); [|exists 0; reflexivity].
  destruct (val_spec v nd c) as (n & H). exists n. rewrite H.
  destruct (val v nd c); auto. destruct (wa_pop_front w); auto.
Qed.

Lemma aval_eq m w c :
  aval m w c =
  match m with
  | NOccur limit nd => array_occur limit nd w c
  | NKeyValue _ vl _ => array_value vl w c
  | NRule name args =>
      match lookup_rule lk c name args with
      | Ok (nd', c') => aval nd' w c'
      | Err e => (Err e, w)
      | Panic => (Panic, w)
      end
  | NUnwrap name args =>
      match lookup_rule lk c name args with
      | Ok (nd', c') => array_unwrap nd' w c'
      | Err e => (Err e, w)
      | Panic => (Panic, w)
      end
  | NChoice os => tries is_fatal (fun o w => aval o w c) os (choice_error os) w
  | NGroup ms => array_group ms w c
  | _ => array_value m w c
  end.
Proof.
  assert (AV : forall nd, (forall n w, validate_array_member X (lookup_rule lk) (S n) m w c =
      validate_array_value X (fun v nd => validate X (lookup_rule lk) n v nd c) nd w) -> aval m w c = array_value nd w c).
  { intros nd H. destruct (array_value_run nd w c) as (n & E). eapply (aval_run (S n)). rewrite H. exact E. }
  destruct m; try (apply AV; intros; apply validate_array_member_S).
  - destruct (lookup_rule lk c name args) as [[nd' c']|e|] eqn:L.
    + destruct (aval_spec nd' w c') as (n & H). eapply (aval_run (S n)).
      rewrite validate_array_member_S, L. exact H.
    + eapply (aval_run 1). rewrite validate_array_member_S, L. reflexivity.
    + eapply (aval_run 1). rewrite validate_array_member_S, L. reflexivity.
  - destruct (tries_run (fun n o w => validate_array_member X (lookup_rule lk) n o w c) (fun o w => aval o w c) is_fatal options (choice_error options) w) as (n & H).
    + intros; apply mA.
    + intros; apply aval_spec.
    + eapply (aval_run (S n)). rewrite validate_array_member_S. exact H.
  - unfold array_group.
    destruct (seqs_run (fun n m w => validate_array_member X (lookup_rule lk) n m w c) (fun m w => aval m w c) members (wa_snapshot w)) as (n & H).
    + intros; apply mA.
    + intros; apply aval_spec.
    + eapply (aval_run (S n)). rewrite validate_array_member_S. unfold validate_array_group. rewrite H.
      destruct (seqs _ _ _) as [[u|e|] s]; auto; [destruct (wa_commit s)|destruct (wa_rewind s)]; auto.
  - unfold array_occur.
    destruct (occ_run (fun n w => validate_array_member X (lookup_rule lk) n m w c) (fun w => aval m w c) (snd (bounds limit)) 0%N w) as (n & H).
    + intros; apply mA.
    + intros; apply aval_spec.
    + eapply (aval_run (S n)). rewrite validate_array_member_S. unfold validate_array_occur.
      rewrite limits_bounds. destruct (bounds limit) as [lo up]; cbn [fst snd] in *. rewrite H.
      destruct (occ _ _ _ _) as [[u|e|] s]; cbn; auto. destruct (N.ltb u lo); auto.
  - destruct (lookup_rule lk c name args) as [[nd' c']|e|] eqn:L.
    + unfold array_unwrap. destruct nd'; try (eapply (aval_run 1); rewrite validate_array_member_S, L; reflexivity).
      destruct (seqs_run (fun n m w => validate_array_member X (lookup_rule lk) n m w c') (fun m w => aval m w c') members w) as (n & H).
      * intros; apply mA.
      * intros; apply aval_spec.
      * eapply (aval_run (S n)). rewrite validate_array_member_S, L. exact H.
    + eapply (aval_run 1). rewrite validate_array_member_S, L. reflexivity.
    + eapply (aval_run 1). rewrite validate_array_member_S, L. reflexivity.
Qed.

Lemma map_keyvalue_run key vl cut w c :
  exists n, validate_map_keyvalue X (fun v nd => validate X (lookup_rule lk) n v nd c) key vl cut w = Some (map_keyvalue key vl cut w c).
Proof.
  assert (K : exists n, validate_map_key X (fun v nd => validate X (lookup_rule lk) n v nd c) key w = Some (map_key key w c)).
  { unfold validate_map_key, map_key, map_search. destruct key; try (exists 0; reflexivity);
      (apply (searches_run (fun n k => validate X (lookup_rule lk) n k _ c) (fun k => val k _ c));
       [intros; apply mV|intros; apply val_spec]). }
  assert (MK : monof (fun n => validate_map_key X (fun v nd => validate X (lookup_rule lk) n v nd c) key w)).
  { intros n m H. unfold validate_map_key, map_search. destruct key; auto with mono;
      apply map_search_loop_mono; intros; apply mV; auto. }
  unfold validate_map_keyvalue, map_keyvalue. destruct K as (n & E).
  destruct (map_key key w c) as [[wk wv]|e|].
  - destruct (val_spec wv vl c) as (m & E'). exists (Nat.max n m).
    rewrite (le_opt_some _ _ _ (MK n (Nat.max n m) ltac:(lia)) E).
    rewrite (le_opt_some _ _ _ (mV X lk wv vl c m (Nat.max n m) ltac:(lia)) E').
    destruct (val wv vl c); auto.
    + destruct (wm_remove wk w); auto.
    + destruct cut, e; auto.
  - exists n. rewrite E. reflexivity.
  - exists n. rewrite E. reflexivity.
Qed.

Lemma mval_eq m w c :
  mval m w c =
  match m with
  | NOccur limit nd => map_occur limit nd w c
  | NKeyValue key vl cut => map_keyvalue key vl cut w c
  | NRule name args =>
      match lookup_rule lk c name args with
      | Ok (nd', c') => mval nd' w c'
      | Err e => (Err e, w)
      | Panic => (Panic, w)
      end
  | NUnwrap name args =>
      match lookup_rule lk c name args with
      | Ok (nd', c') => map_unwrap nd' w c'
      | Err e => (Err e, w)
      | Panic => (Panic, w)
      end
  | NGroup ms => map_group ms w c
  | NChoice os => tries (fun e => negb (is_mismatch e)) (fun o w => mval o w c) os (choice_error os) w
  | NChoiceify name args => mchval name args w c
  | NChoiceifyInline ms =>
      tries (fun e => negb (is_mismatch e)) (fun o w => mval o w c) ms (choice_error ms) w
  | NLiteral _ => (Err (EStructural (txt "literal map member")), w)
  | NPrelude _ => (Err (EStructural (txt "prelude type map member")), w)
  | NMap _ => (Err (EStructural (txt "map as map member")), w)
  | NArray _ => (Err (EStructural (txt "array as map member")), w)
  | NRange _ _ _ => (Err (EStructural (txt "range as map member")), w)
  | NControl _ => (Err (EStructural (txt "control op as map member")), w)
  end.
Proof.
  assert (CHO : forall os, exists n, validate_map_choice (fun m w => validate_map_member X (lookup_rule lk) n m w c) os w
     = Some (tries (fun e => negb (is_mismatch e)) (fun o w => mval o w c) os (choice_error os) w)).
  { intros os. apply (tries_run (fun n o w => validate_map_member X (lookup_rule lk) n o w c)).
    - intros; apply mM.
    - intros; apply mval_spec. }
  destruct m; try (eapply (mval_run 1); reflexivity).
  - destruct (lookup_rule lk c name args) as [[nd' c']|e|] eqn:L.
    + destruct (mval_spec nd' w c') as (n & H). eapply (mval_run (S n)).
      rewrite validate_map_member_S, L. exact H.
    + eapply (mval_run 1). rewrite validate_map_member_S, L. reflexivity.
    + eapply (mval_run 1). rewrite validate_map_member_S, L. reflexivity.
  - destruct (CHO options) as (n & H). eapply (mval_run (S n)). rewrite validate_map_member_S. exact H.
  - unfold map_group.
    destruct (seqs_run (fun n m w => validate_map_member X (lookup_rule lk) n m w c) (fun m w => mval m w c) members (wm_snapshot w)) as (n & H).
    + intros; apply mM.
    + intros; apply mval_spec.
    + eapply (mval_run (S n)). rewrite validate_map_member_S. unfold validate_map_group. rewrite H.
      destruct (seqs _ _ _) as [[u|e|] s]; auto; [destruct (wm_commit s)|destruct (wm_rewind s)]; auto.
  - destruct (map_keyvalue_run m1 m2 cut w c) as (n & H). eapply (mval_run (S n)).
    rewrite validate_map_member_S. exact H.
  - unfold map_occur.
    destruct (occ_run (fun n w => validate_map_member X (lookup_rule lk) n m w c) (fun w => mval m w c) (snd (bounds limit)) 0%N w) as (n & H).
    + intros; apply mM.
    + intros; apply mval_spec.
    + eapply (mval_run (S n)). rewrite validate_map_member_S. unfold validate_map_occur.
      rewrite limits_bounds. destruct (bounds limit) as [lo up]; cbn [fst snd] in *. rewrite H.
      destruct (occ _ _ _ _) as [[u|e|] s]; cbn; auto. destruct (N.ltb u lo); auto.
  - destruct (lookup_rule lk c name args) as [[nd' c']|e|] eqn:L.
    + unfold map_unwrap. destruct nd'; try (eapply (mval_run 1); rewrite validate_map_member_S, L; reflexivity).
      destruct (seqs_run (fun n m w => validate_map_member X (lookup_rule lk) n m w c') (fun m w => mval m w c') members w) as (n & H).
      * intros; apply mM.
      * intros; apply mval_spec.
      * eapply (mval_run (S n)). rewrite validate_map_member_S, L. exact H.
    + eapply (mval_run 1). rewrite validate_map_member_S, L. reflexivity.
    + eapply (mval_run 1). rewrite validate_map_member_S, L. reflexivity.
  - destruct (mchval_spec name args w c) as (n & H). eapply (mval_run (S n)).
    rewrite validate_map_member_S. exact H.
  - destruct (CHO members) as (n & H). eapply (mval_run (S n)). rewrite validate_map_member_S. exact H.
Qed.
End Fun.
