(** How much work a validation is: C77. *)
From Coq Require Import List Bool ZArith NArith String Lia Arith.
From Verif Require Import Base Util Data Value Convert Ivt Scalar Validate Total Fun SpecBase SpecCtx ValueOrder ConvertProofs
  CtxProofs SpecConvert SpecVerdict SpecPos SpecJudge SpecPeg SpecActs ActProofs ArrayInv SpecNest SpecConsume Nest SpecWork WorkProofs WorkBound
  PropsBlame Demo.
Import ListNotations.
Open Scope list_scope.

(** ** C77.  Validating a document settles a definite number of questions
    ([cost], SpecWork.v), the one whose answer is the verdict included. *)
Theorem C77_defined : forall X lk v nd, (forall name e, lk name = inr e -> is_fatal e = true) -> wf_value v ->
  exists n, cost X lk (AskType initial_ctx nd v) n /\ forall m, cost X lk (AskType initial_ctx nd v) m -> m = n.
Proof.
  intros X lk v nd Hl W. assert (K : keys_sorted v) by (apply wf_keys_sorted; auto).
  destruct (val_spec X lk v nd initial_ctx) as (f & E). pose proof (proj1 (main X lk Hl f) initial_ctx nd v _ K E) as P.
  destruct (cost_exists X lk _ _ P) as (n & C). exists n. split; auto. intros m C'. eapply cost_unique; eauto.
Qed.

(** The number is at most [(B + 4) ^ (h + 1)], where [B] bounds the entries of each
    array and map and the size of each rule, and [h] the length of chains of calls,
    provided members repeated more than [B] times use something up. *)
Theorem C77_bound : forall X lk B h v nd n, (forall name e, lk name = inr e -> is_fatal e = true) -> wf_value v ->
  fits X B v -> (nsize nd <= B)%nat -> (forall name def, lk name = inl def -> (nsize (rd_node def) <= B)%nat) ->
  (forall m k, nested (calls lk) m (Call JType nd initial_ctx) k -> (m <= h)%nat /\ modest lk B k) ->
  cost X lk (AskType initial_ctx nd v) n -> (n <= (B + 4) ^ (h + 1))%nat.
Proof.
  intros X lk B h v nd n Hl W F Sn Sr N C.
  refine (work_bound X lk Hl B B Sr (le_n _) h (Call JType nd initial_ctx) N Sn (small_initial B) _ _ _ C).
  constructor. split; auto. apply wf_keys_sorted; auto.
Qed.
(** For a fixed schema without generic parameters it is a polynomial in the number of
    entries: [s] bounds the size of the rules. *)
Theorem C77_polynomial : forall X lk s B v nd n, (forall name e, lk name = inr e -> is_fatal e = true) -> wf_value v ->
  fits X B v -> (s <= B)%nat -> (nsize nd <= s)%nat ->
  (forall name def, lk name = inl def -> (nsize (rd_node def) <= s)%nat /\ rd_parms def = []) ->
  (forall m k, nested (calls lk) m (Call JType nd initial_ctx) k -> modest lk B k) ->
  cost X lk (AskType initial_ctx nd v) n -> (n <= (B + 4) ^ (102 * (s + 1)))%nat.
Proof.
  intros X lk s B v nd n Hl W F SB Sn Sr N C.
  eapply Nat.le_trans; [eapply (C77_bound X lk B (2 * (nsize nd + 50 * S s) + 1) v nd n); eauto; [lia| |]|].
  - intros name def L. apply Sr in L. lia.
  - intros m k Hk. split; eauto. eapply nesting_bound_plain; eauto; intros name def L; apply Sr in L; tauto.
  - apply Nat.pow_le_mono_r; lia.
Qed.
(** With generic parameters too, with a larger exponent. *)
Theorem C77_polynomial_generic : forall X lk s B v nd n, (forall name e, lk name = inr e -> is_fatal e = true) -> wf_value v ->
  fits X B v -> (s <= B)%nat -> (nsize nd <= s)%nat ->
  (forall name def, lk name = inl def -> (nsize (rd_node def) <= s)%nat) ->
  (forall m k, nested (calls lk) m (Call JType nd initial_ctx) k -> modest lk B k) ->
  cost X lk (AskType initial_ctx nd v) n -> (n <= (B + 4) ^ (2 * (s * S s ^ 50) + 2))%nat.
Proof.
  intros X lk s B v nd n Hl W F SB Sn Sr N C.
  eapply Nat.le_trans; [eapply (C77_bound X lk B (2 * (nsize nd * S s ^ 50) + 1) v nd n); eauto; [lia| |]|].
  - intros name def L. apply Sr in L. lia.
  - intros m k Hk. split; eauto. eapply nesting_bound; eauto.
  - apply Nat.pow_le_mono_r; [lia|]. assert (nsize nd * S s ^ 50 <= s * S s ^ 50)%nat by (apply Nat.mul_le_mono_r; auto). lia.
Qed.

(** The exponent must grow with the schema: with the one rule [g<a> = [a] / [a]],
    each further [g] around the type and array around the document doubles the work,
    although there is one entry per array.  (The document is rejected.) *)
Definition rules_twice : rules := [ (txt "g", RuleDef [txt "a"] (NChoice [NArray [name_ "a"]; NArray [name_ "a"]])) ].
Fixpoint around (k : nat) : node := match k with O => int_t | S k => NRule (txt "g") [around k] end.
Fixpoint inside (k : nat) : value := match k with O => vs "x" | S k => VArray [inside k] end.
Section Doubling.
Variable X : ext.
Notation lk := (basic_context rules_twice).
Notation acts := (acts X lk).
Notation cost := (cost X lk).
Definition arg (k : nat) : ctx := Ctx [(txt "a", around k)] (Some initial_ctx) 1.
Lemma look_g k : lookup_rule lk initial_ctx (txt "g") [around k] = Ok (NChoice [NArray [name_ "a"]; NArray [name_ "a"]], arg k).
Proof. vm_compute. reflexivity. Qed.
Lemma look_a k : lookup_rule lk (arg k) (txt "a") [] = Ok (around k, initial_ctx).
Proof. reflexivity. Qed.
Lemma one k M : (exists m, acts (AskArr initial_ctx (around k) [inside k]) (DidA (Missed m) [] [inside k])) ->
  (exists n, cost (AskArr initial_ctx (around k) [inside k]) n /\ M <= n)%nat ->
  (exists m, acts (AskType (arg k) (NArray [name_ "a"]) (inside (S k))) (Reject m)) /\
  (exists n, cost (AskType (arg k) (NArray [name_ "a"]) (inside (S k))) n /\ M <= n)%nat.
Proof.
  intros (m & A) (n & C & L). split.
  - exists m. cbn [inside]. change (Reject m) with (all_of (DidA (Missed m) [] [inside k])). apply t_array. apply seqa_stop; [|discriminate].
    eapply a_name; [apply look_a|exact A].
  - eexists. split.
    + cbn [inside]. eapply cost_of; [apply w_array|]. eapply costs_more; [|constructor].
      eapply cost_of; [eapply w_seqa_stop; [eapply a_name; [apply look_a|exact A]|discriminate]|].
      eapply costs_more; [|constructor]. eapply cost_of; [eapply w_a_name; apply look_a|].
      eapply costs_more; [exact C|constructor].
    + lia.
Qed.
Lemma twice k : (exists m, acts (AskArr initial_ctx (around k) [inside k]) (DidA (Missed m) [] [inside k])) /\
  (exists n, cost (AskArr initial_ctx (around k) [inside k]) n /\ 2 ^ k <= n)%nat.
Proof.
  induction k as [|k [A C]].
  - cbn [around inside]. split.
    + eexists. apply (a_element X lk initial_ctx int_t int_t (vs "x") [] (Reject _)); [reflexivity|].
      apply (t_leaf X lk initial_ctx int_t (vs "x") (Poor _)). apply j_prelude. apply settles_no. inversion 1.
    + eexists. split.
      * eapply cost_of; [eapply w_element; reflexivity|]. eapply costs_more; [|constructor].
        eapply cost_of; [apply w_leaf; reflexivity|constructor].
      * cbn. lia.
  - destruct (one k (2 ^ k) A C) as [(m & A1) (n & C1 & L)].
    assert (E : acts (AskArr (arg k) (NArray [name_ "a"]) [inside (S k)]) (DidA (Missed m) [] [inside (S k)])).
    { apply (a_element X lk (arg k) (NArray [name_ "a"]) (NArray [name_ "a"]) (inside (S k)) [] (Reject m)); [reflexivity|exact A1]. }
    cbn [around]. split.
    + exists (choice_of [NArray [name_ "a"]; NArray [name_ "a"]]). eapply a_name; [apply look_g|]. apply a_choice.
      change (acts (AskAltA (choice_of [NArray [name_ "a"]; NArray [name_ "a"]]) (arg k) [NArray [name_ "a"]; NArray [name_ "a"]] [inside (S k)])
        (afterA [] (afterA [] (DidA (Missed (choice_of [NArray [name_ "a"]; NArray [name_ "a"]])) [] [inside (S k)])))).
      eapply alta_next; [exact E|]. eapply alta_next; [exact E|]. apply alta_end.
    + eexists. split.
      * eapply cost_of; [eapply w_a_name; apply look_g|]. eapply costs_more; [|constructor].
        eapply cost_of; [apply w_a_choice|]. eapply costs_more; [|constructor].
        assert (C2 : cost (AskArr (arg k) (NArray [name_ "a"]) [inside (S k)]) (S (n + 0))).
        { eapply cost_of; [eapply w_element; reflexivity|]. eapply costs_more; [exact C1|constructor]. }
        eapply cost_of; [eapply w_alta_next; exact E|]. eapply costs_more; [exact C2|]. eapply costs_more; [|constructor].
        eapply cost_of; [eapply w_alta_next; exact E|]. eapply costs_more; [exact C2|]. eapply costs_more; [|constructor].
        eapply cost_of; [apply w_alta_none|constructor].
      * cbn [Nat.pow]. lia.
Qed.
End Doubling.
Theorem C77_doubling : forall X k, exists n,
  cost X (basic_context rules_twice) (AskType initial_ctx (NArray [around k]) (VArray [inside k])) n /\ (2 ^ k <= n)%nat /\
  fits X 1 (VArray [inside k]) /\ nsize (NArray [around k]) = (k + 2)%nat.
Proof.
  intros X k. destruct (twice X k) as [(m & A) (n & C & L)]. eexists. split; [|split; [|split]].
  - eapply cost_of; [apply w_array|]. eapply costs_more; [|constructor].
    eapply cost_of; [eapply w_seqa_stop; [exact A|discriminate]|]. eapply costs_more; [exact C|constructor].
  - lia.
  - apply fits_array; [cbn; lia|]. intros v [<-|[]]. clear. induction k; cbn; [apply fits_plain; exact I|].
    apply fits_array; [cbn; lia|]. intros v [<-|[]]. auto.
  - change (nsize (NArray [around k])) with (S (nsize (around k) + 0)).
    assert (nsize (around k) = S k) by (clear; induction k; [reflexivity|]; change (nsize (around (S k))) with (S (nsize (around k) + 0)); lia). lia.
Qed.

(** [{* tstr => [* int]}] meets the hypotheses. *)
Definition table : node := NMap [NOccur OZeroOrMore (NKeyValue tstr_t (NArray [NOccur OZeroOrMore int_t]) false)].
Definition filled : value := VMap [(vs "a", VArray [vi 1; vi 2]); (vs "b", VArray [])].
Lemma table_calls m k : nested (calls no_rules) m (Call JType table initial_ctx) k -> (m <= 6)%nat /\ modest no_rules 10 k.
Proof.
  intros N. unfold table in N.
  repeat match goal with
  | I : In _ [_] |- _ => destruct I as [<-|[]]
  | P : plain_member _ |- _ => cbn in P; try contradiction; clear P
  | C : calls _ (Call _ _ _) _ |- _ => inversion C; subst; clear C
  | N : nested _ _ (Call _ _ _) _ |- _ => inversion N; subst; clear N
  end; (split; [lia|]); try exact I.
  - left. apply em_kv.
  - left. apply ea_type. exact I.
Qed.
Lemma filled_wf : wf_value filled.
Proof. cbn. repeat split; try lia; repeat constructor; cbn; lia. Qed.
Lemma filled_fits : fits demo_ext 10 filled.
Proof.
  apply fits_map; [cbn; lia|]. intros k v [[= <- <-]|[[= <- <-]|[]]]; (split; [apply fits_plain; exact I|]);
    (apply fits_array; [cbn; lia|]); [intros v [<-|[<-|[]]]|intros v []]; apply fits_plain; exact I.
Qed.
Example C77_example : (exists n, cost demo_ext no_rules (AskType initial_ctx table filled) n) /\
  wf_value filled /\ fits demo_ext 10 filled /\ (nsize table <= 7)%nat /\
  forall m k, nested (calls no_rules) m (Call JType table initial_ctx) k -> (m <= 6)%nat /\ modest no_rules 10 k.
Proof.
  split; [|split; [exact filled_wf|split; [exact filled_fits|split; [cbn; lia|exact table_calls]]]].
  destruct (C77_defined demo_ext no_rules filled table (basic_fatal _) filled_wf) as (n & C & _). eauto.
Qed.

Print Assumptions C77_defined.
Print Assumptions C77_bound.
Print Assumptions C77_polynomial.
Print Assumptions C77_polynomial_generic.
Print Assumptions C77_doubling.
