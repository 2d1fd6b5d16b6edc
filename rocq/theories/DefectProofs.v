(** Every schema error comes from a defect of the schema. *)
From Coq Require Import List Bool ZArith NArith String Lia.
From Verif Require Import Base Util Data Value Convert Ivt Scalar Validate Fun SpecBase SpecReach SpecPeg SpecDefect.
Import ListNotations.
Open Scope list_scope.

Section Defects.
Variable X : ext.
Variable lk : lookup_context.
Hypothesis Hlk : forall name e, lk name = inr e -> is_fatal e = true.
Notation L := (lookup_rule lk).
Variables (c0 : ctx) (nd0 : node).
Notation U := (uses lk c0 nd0).
Definition D (e : verror) : Prop := exists r c nd, U r c nd /\ defect X lk r c nd e.

(** * Loops *)
Lemma try_err {St} stop (f : node -> St -> option (res unit * St)) fin : forall os s e s',
  try_loop stop f os fin s = Some (Err e, s') -> e = fin \/ exists o s1, In o os /\ f o s1 = Some (Err e, s').
Proof.
  induction os as [|o os IH]; cbn; intros s e s' H; [inversion H; auto|].
  destruct (f o s) as [[[[]|e1|] s1]|] eqn:F; try discriminate. destruct (stop e1).
  - inversion H; subst. right. exists o, s. auto.
  - destruct (IH _ _ _ H) as [->|(o' & s2 & Ho & E)]; auto. right. exists o', s2. auto.
Qed.
Lemma try_pure_err stop (f : node -> option (res unit)) fin : forall os e,
  try_loop_pure stop f os fin = Some (Err e) -> e = fin \/ exists o, In o os /\ f o = Some (Err e).
Proof.
  induction os as [|o os IH]; cbn; intros e H; [inversion H; auto|].
  destruct (f o) as [[[]|e1|]|] eqn:F; try discriminate. destruct (stop e1).
  - inversion H; subst. right. exists o. auto.
  - destruct (IH _ H) as [->|(o' & Ho & E)]; auto. right. exists o'. auto.
Qed.
Lemma seq_err {St} (f : node -> St -> option (res unit * St)) : forall ms s e s',
  seq_loop f ms s = Some (Err e, s') -> exists m s1, In m ms /\ f m s1 = Some (Err e, s').
Proof.
  induction ms as [|m ms IH]; cbn; intros s e s' H; [discriminate|].
  destruct (f m s) as [[[[]|e1|] s1]|] eqn:F; try discriminate.
  - destruct (IH _ _ _ H) as (m' & s2 & Hm & E). exists m', s2. auto.
  - inversion H; subst. exists m, s. auto.
Qed.
Lemma occur_err {St} (f : St -> option (res unit * St)) up : forall n k s e s',
  occur_loop n f up k s = Some (Err e, s') -> exists s1, f s1 = Some (Err e, s').
Proof.
  induction n as [|n IH]; cbn; intros k s e s' H; [discriminate|].
  destruct (f s) as [[[[]|e1|] s1]|] eqn:F; try discriminate.
  - destruct (N.leb _ _); [discriminate|]. eauto.
  - destruct (is_mismatch e1); inversion H; subst; eauto.
Qed.

(** * Leaves *)
Lemma deref_err : forall n nd c e, deref_range_rule (lookup_rule lk) n nd c = Some (Err e) ->
  dangles lk c nd e \/ (exists nd' m, stands lk c nd nd' /\ (forall l, nd' <> NLiteral l) /\ e = EStructural m).
Proof.
  induction n as [|n IH]; cbn; intros nd c e H; [discriminate|].
  destruct nd; inversion H; subst;
    try (right; eexists; eexists; split; [exists c; apply named_here; discriminate|split; [discriminate|reflexivity]]).
  destruct (L c name args) as [[nd' c']|e'|] eqn:E; inversion H; subst.
  - destruct (IH _ _ _ H) as [(n1 & a1 & c1 & F & G)|(nd2 & m & (c2 & S) & N & ->)].
    + left. exists n1, a1, c1. split; auto. eapply follows_step; eauto.
    + right. exists nd2, m. split; [exists c2; eapply named_step; eauto|]. auto.
  - left. exists name, args, c. split; auto. constructor.
Qed.
Lemma deref_ok : forall n nd c l, deref_range_rule (lookup_rule lk) n nd c = Some (Ok l) -> stands lk c nd (NLiteral l).
Proof.
  induction n as [|n IH]; cbn; intros nd c l H; [discriminate|].
  destruct nd; inversion H; subst; [exists c; apply named_here; discriminate|].
  destruct (L c name args) as [[nd' c']|e'|] eqn:E; inversion H; subst.
  destruct (IH _ _ _ H) as (c2 & S). exists c2. eapply named_step; eauto.
Qed.
Lemma chase_res {R} (f : node -> res R) : forall n nd c r, chase_rules (lookup_rule lk) n f nd c = Some r -> r <> Panic ->
  (exists e, r = Err e /\ dangles lk c nd e) \/ exists nd', stands lk c nd nd' /\ r = f nd'.
Proof.
  induction n as [|n IH]; cbn; intros nd c r H Np; [discriminate|].
  destruct nd; try (inversion H; subst; right; eexists; split; [exists c; apply named_here; discriminate|reflexivity]).
  destruct (L c name args) as [[nd' c']|e'|] eqn:E; try (inversion H; subst; congruence).
  - destruct (IH _ _ _ H Np) as [(e & -> & n1 & a1 & c1 & F & G)|(nd2 & (c2 & S) & ->)].
    + left. exists e. split; auto. exists n1, a1, c1. split; auto. eapply follows_step; eauto.
    + right. exists nd2. split; auto. exists c2. eapply named_step; eauto.
  - inversion H; subst. left. exists e'. split; auto. exists name, args, c. split; auto. constructor.
Qed.
Lemma to_u64_some z u : to_u64 z = Some u -> u64 z.
Proof.
  unfold to_u64, u64. destruct (Z.leb_spec 0 z); [|discriminate]. destruct (Z.leb_spec z 18446744073709551615); [|discriminate]. lia.
Qed.
Lemma to_u64_none z : to_u64 z = None -> ~ u64 z.
Proof.
  unfold to_u64, u64. destruct (Z.leb_spec 0 z); [|lia]. destruct (Z.leb_spec z 18446744073709551615); [discriminate|]. lia.
Qed.
Ltac nolimit := split; [intros HH; inversion HH|eauto; fail].
Lemma size_arg_bad t l nd e : normalize_size_range X nd = Err e -> ~ limit_for (CtlSize t l) nd /\ exists m, e = EStructural m.
Proof.
  unfold normalize_size_range. destruct nd as [lit| | | | | | | | | |s t' incl| | |]; try (intros [= <-]; nolimit).
  - destruct lit; try (intros [= <-]; nolimit).
    destruct (to_u64 _) eqn:T; intros [= <-]. split; [|unfold bad_limit; eauto]. intros H; inversion H; subst. eapply to_u64_none; eauto.
  - destruct s as [lit| | | | | | | | | | | | |]; try (intros [= <-]; nolimit). destruct lit as [|a| | |]; try (intros [= <-]; nolimit).
    destruct t' as [lit| | | | | | | | | | | | |]; try (intros [= <-]; nolimit). destruct lit as [|b| | |]; try (intros [= <-]; nolimit).
    destruct (to_u64 a) eqn:T; [|intros [= <-]; split; [intros H; inversion H; subst; eapply to_u64_none; eauto|unfold bad_limit; eauto]].
    destruct (to_u64 b) eqn:T'; intros [= <-]. split; [intros H; inversion H; subst; eapply to_u64_none; eauto|unfold bad_limit; eauto].
Qed.
Lemma size_arg_ok nd sz : normalize_size_range X nd = Ok sz ->
  exists a b i u u', sz = (NLiteral (LInt a), NLiteral (LInt b), i) /\ to_u64 a = Some u /\ to_u64 b = Some u'.
Proof.
  unfold normalize_size_range. destruct nd as [lit| | | | | | | | | |s t' incl| | |]; try discriminate.
  - destruct lit as [|a| | |]; try discriminate. destruct (to_u64 a) eqn:T; intros [= <-]. repeat eexists; eauto.
  - destruct s as [lit| | | | | | | | | | | | |]; try discriminate. destruct lit as [|a| | |]; try discriminate.
    destruct t' as [lit| | | | | | | | | | | | |]; try discriminate. destruct lit as [|b| | |]; try discriminate.
    destruct (to_u64 a) eqn:T; [|discriminate]. destruct (to_u64 b) eqn:T'; intros [= <-]. repeat eexists; eauto.
Qed.
Lemma limit_bad op nd e : cmp_limit X op nd = Err e -> (forall z, nd <> NLiteral (LInt z)) /\ exists m, e = EStructural m.
Proof. unfold cmp_limit. destruct nd as [lit| | | | | | | | | | | | |]; try (intros [= <-]; split; [discriminate|eauto; fail]).
  destruct lit; try (intros [= <-]; split; [discriminate|eauto; fail]); discriminate. Qed.
Ltac dif := repeat match goal with |- context [if ?b then _ else _] => destruct b | |- context [match ?b with Some _ => _ | None => _ end] => destruct b end.
Lemma size_target_bad a b i u u' v nd e : to_u64 a = Some u -> to_u64 b = Some u' ->
  size_target X (NLiteral (LInt a), NLiteral (LInt b), i) v nd = Err e -> is_fatal e = true ->
  (forall p, In p [PUint; PTstr; PBstr] -> nd <> NPrelude p) /\ exists m, e = EStructural m.
Proof.
  intros Ta Tb. unfold size_target. destruct nd as [|p| | | | | | | | | | | |];
    try (intros [= <-] _; split; [intros; discriminate|eauto; fail]).
  destruct p; try (intros [= <-] _; split; [cbn; intros p [<-|[<-|[<-|[]]]]; discriminate|eauto; fail]);
    unfold validate_size_uint, validate_size_tstr, validate_size_bstr, size_bounds; rewrite Ta, Tb; cbn -[shl_i128_one];
    dif; destruct v; dif; intros [= <-]; discriminate.
Qed.
Definition cmp_checks (f : node -> res unit) (v : value) : Prop :=
  forall nd e, f nd = Err e -> is_fatal e = true ->
  (forall p, In p [PUint; PNint; PInt] -> nd <> NPrelude p) /\ exists m, e = EStructural m.
Ltac cmpt v := intros nd e; destruct nd as [|p| | | | | | | | | | | |];
    try (intros [= <-] _; split; [intros; discriminate|eauto; fail]);
  destruct p; try (intros [= <-] _; split; [cbn; intros p [<-|[<-|[<-|[]]]]; discriminate|eauto; fail]);
  destruct v; cbn; dif; intros [= <-]; discriminate.
Lemma lt_checks z v : cmp_checks (lt_target X z v) v.
Proof. cmpt v. Qed.
Lemma le_checks z v : cmp_checks (le_target X z v) v.
Proof. cmpt v. Qed.
Lemma gt_checks z v : cmp_checks (gt_target X z v) v.
Proof. cmpt v. Qed.
Lemma ge_checks z v : cmp_checks (ge_target X z v) v.
Proof. cmpt v. Qed.

Lemma cmp_err n c (t l : node) op (ctl : control node) (g : Z -> value -> node -> res unit) v e :
  control_parts ctl t l -> (forall l', limit_for ctl l' -> exists z, l' = NLiteral (LInt z)) ->
  (forall p, target_for ctl p -> In p [PUint; PNint; PInt]) -> (forall z, cmp_checks (g z v) v) ->
  obind (chase_rules (lookup_rule lk) n (cmp_limit X op) l c) (fun z => chase_rules (lookup_rule lk) n (g z v) t c) = Some (Err e) ->
  is_fatal e = true -> defect X lk AsType c (NControl ctl) e.
Proof.
  intros P Li Ti G H F. unfold obind in H.
  destruct (chase_rules _ n (cmp_limit X op) l c) as [r|] eqn:C; [|discriminate].
  destruct (chase_res _ _ _ _ _ C) as [(e' & -> & Da)|(l' & S & ->)]; [destruct r; discriminate| |].
  - inversion H; subst. eapply bad_control_name with (nd := l); eauto.
  - destruct (cmp_limit X op l') as [z|e'|] eqn:E; [|inversion H; subst|discriminate].
    + destruct (chase_res _ _ _ _ _ H ltac:(discriminate)) as [(e' & [= <-] & Da)|(t' & S' & Q)].
      * eapply bad_control_name with (nd := t); eauto.
      * symmetry in Q. destruct (G z _ _ Q F) as [Np (m & ->)]. eapply bad_target; eauto.
    + destruct (limit_bad _ _ _ E) as [Nl (m & ->)]. eapply bad_limit_of; eauto. intros Hl. destruct (Li _ Hl) as (z & ->). eapply Nl; eauto.
Qed.

Lemma range_bad sh l l' i v e : range_compare sh l l' i v = Err e -> is_fatal e = true -> ~ same_kind l l' /\ exists m, e = EStructural m.
Proof.
  unfold range_compare. destruct l, l'; cbn;
    try (intros [= <-] _; split; [tauto|eauto; fail]);
    destruct v; dif; intros [= <-]; discriminate.
Qed.

(** * All functions *)
Definition all_err (n : nat) : Prop :=
  (forall v nd c e, U AsType c nd -> validate X (lookup_rule lk) n v nd c = Some (Err e) -> is_fatal e = true -> D e) /\
  (forall m w c e w', U AsArray c m -> validate_array_member X (lookup_rule lk) n m w c = Some (Err e, w') -> is_fatal e = true -> D e) /\
  (forall m w c e w', U AsMap c m -> validate_map_member X (lookup_rule lk) n m w c = Some (Err e, w') -> is_fatal e = true -> D e) /\
  (forall name args v c e, U AsOneOf c (NRule name args) ->
     validate_choiceify X (lookup_rule lk) n name args v c = Some (Err e) -> is_fatal e = true -> D e) /\
  (forall name args w c e w', U AsOneOfM c (NRule name args) ->
     validate_map_choiceify X (lookup_rule lk) n name args w c = Some (Err e, w') -> is_fatal e = true -> D e).

Lemma all_errors n : all_err n.
Proof.
  induction n as [|n (IV & IA & IM & IC & IMC)].
  { repeat split; cbn; intros; discriminate. }
  assert (MC : forall v is c e, (forall i, In i is -> U (item_role i) c (item_node i)) ->
    validate_choiceify_members (fun m => validate X (lookup_rule lk) n v m c)
      (fun name args => validate_choiceify X (lookup_rule lk) n name args v c) is = Some (Err e) -> is_fatal e = true -> D e).
  { intros v is c e Us H F. apply try_pure_err in H. destruct H as [->|(i & Hi & H)]; [discriminate|]. specialize (Us _ Hi).
    destruct i; cbn in Us; eauto. }
  assert (MMC : forall w is c e w', (forall i, In i is -> U (item_role_m i) c (item_node i)) ->
    validate_map_choiceify_members (fun m w => validate_map_member X (lookup_rule lk) n m w c)
      (fun name args w => validate_map_choiceify X (lookup_rule lk) n name args w c) is w = Some (Err e, w') -> is_fatal e = true -> D e).
  { intros w is c e w' Us H F. apply try_err in H. destruct H as [->|(i & w1 & Hi & H)]; [discriminate|]. specialize (Us _ Hi).
    destruct i; cbn in Us; eauto. }
  assert (AV : forall t w c e w', U AsType c t -> validate_array_value X (fun v nd => validate X (lookup_rule lk) n v nd c) t w = Some (Err e, w') ->
    is_fatal e = true -> D e).
  { intros t w c e w' Us H F. unfold validate_array_value in H. destruct (wa_peek_front w); [|inversion H; subst; discriminate].
    destruct (validate _ _ _ _ _ _) as [[[]|e1|]|] eqn:V; try discriminate; [destruct (wa_pop_front w); discriminate|inversion H; subst; eauto]. }
  split; [|split; [|split; [|split]]].
  - intros v nd c e Us H F. destruct nd; cbn [validate] in H.
    + unfold validate_literal in H. destruct (veqb _ _); inversion H; subst; discriminate.
    + exfalso. destruct p, v; cbn in H; try (inversion H; subst; discriminate);
        match type of H with context [if ?b then _ else _] => destruct b end; inversion H; subst; discriminate.
    + destruct (L c name args) as [[nd' c']|e'|] eqn:E; [eapply IV; [|eassumption|eassumption]; eapply use_name; eauto|inversion H; subst|discriminate].
      exists AsType, c, (NRule name args). split; auto. constructor; auto.
    + unfold validate_choice in H. apply try_pure_err in H. destruct H as [->|(o & Ho & H)]; [discriminate|]. eapply IV; [|eassumption|eassumption]. eapply use_choice; eauto.
    + unfold validate_map in H. destruct v; try (inversion H; subst; discriminate).
      destruct (seq_loop _ _ _) as [[[[]|e1|] w]|] eqn:S; try discriminate; [destruct (wm_map w); inversion H; subst; discriminate|].
      apply seq_err in S. destruct S as (m1 & s1 & Hm & S). inversion H; subst.
      destruct (is_fatal e1) eqn:F1; [|destruct e1; discriminate].
      replace (erase_mapcut e1) with e1 by (destruct e1; auto; discriminate). eapply IM; [|eassumption|eassumption]. eapply use_map; eauto.
    + unfold validate_array in H. destruct v; try (inversion H; subst; discriminate).
      destruct (seq_loop _ _ _) as [[[[]|e1|] w]|] eqn:S; try discriminate; [destruct (wa_array w); inversion H; subst; discriminate|].
      apply seq_err in S. destruct S as (m1 & s1 & Hm & S). inversion H; subst. eapply IA; [|eassumption|eassumption]. eapply use_array; eauto.
    + unfold validate_standalone_group in H. destruct members as [|m [|m2 ms]].
      * inversion H; subst. exists AsType, c, (NGroup []). split; auto. constructor; discriminate.
      * eapply IV; [|eassumption|eassumption]. eapply use_group; eauto; left; auto.
      * inversion H; subst. exists AsType, c, (NGroup (m :: m2 :: ms)). split; auto. constructor; discriminate.
    + inversion H; subst. exists AsType, c, (NKeyValue nd1 nd2 cut). split; auto. apply bad_member; auto.
    + inversion H; subst. exists AsType, c, (NOccur limit nd). split; auto. apply bad_member; auto.
    + inversion H; subst. exists AsType, c, (NUnwrap name args). split; auto. apply bad_member; auto.
    + exists AsType, c, (NRange nd1 nd2 inclusive). split; auto. unfold validate_range, obind in H.
      destruct (deref_range_rule _ n nd1 c) as [[l|e1|]|] eqn:E1; try discriminate; [|inversion H; subst].
      2: { destruct (deref_err _ _ _ _ E1) as [Da|(nd' & m & S & N & ->)]; [eapply bad_range_name with (nd := nd1)|eapply bad_range_end with (nd := nd1)]; eauto. }
      destruct (deref_range_rule _ n nd2 c) as [[l2|e1|]|] eqn:E2; try discriminate; [|inversion H; subst].
      2: { destruct (deref_err _ _ _ _ E2) as [Da|(nd' & m & S & N & ->)]; [eapply bad_range_name with (nd := nd2)|eapply bad_range_end with (nd := nd2)]; eauto. }
      assert (H' : range_compare (show_range X nd1 nd2 inclusive) l l2 inclusive v = Err e) by congruence.
      destruct (range_bad _ _ _ _ _ _ H' F) as [Nk (m & ->)]. eapply bad_range_kinds; eauto; eapply deref_ok; eauto.
    + match goal with ct : control node |- _ => destruct ct as [target size| | | | | |] end; cbn [validate_control] in H.
      1: { exists AsType, c, (NControl (CtlSize target size)). split; auto. unfold validate_control_size, obind in H.
        destruct (chase_rules _ n (normalize_size_range X) size c) as [r|] eqn:C; [|discriminate].
        destruct (chase_res _ _ _ _ _ C) as [(e' & -> & Da)|(l' & S & ->)]; [destruct r; discriminate| |].
        - inversion H; subst. apply bad_control_name with (t := target) (l := size) (nd := size); [constructor|auto|auto].
        - destruct (normalize_size_range X l') as [z|e'|] eqn:E; [|inversion H; subst|discriminate].
          + destruct (size_arg_ok _ _ E) as (a & b & i & u & u' & -> & Ta & Tb).
            destruct (chase_res _ _ _ _ _ H ltac:(discriminate)) as [(e' & [= <-] & Da)|(t' & S' & Q)].
            * apply bad_control_name with (t := target) (l := size) (nd := target); [constructor|auto|auto].
            * symmetry in Q. destruct (size_target_bad _ _ _ _ _ _ _ _ Ta Tb Q F) as [Np (m & ->)]. apply bad_target with (t := target) (l := size) (t' := t'); [constructor|auto|].
              intros p Hp. inversion Hp; subst; auto.
          + destruct (size_arg_bad target size _ _ E) as [Nl (m & ->)]. apply bad_limit_of with (t := target) (l := size) (l' := l'); [constructor|auto|auto]. }
      5: { exfalso. unfold validate_control_regexp in H. destruct v; try (inversion H; subst; discriminate). destruct (regex_match _ _ _); inversion H; subst; discriminate. }
      5: { unfold validate_control_cbor in H. destruct v; try (inversion H; subst; discriminate).
        destruct (cbor_decode X b) as [x|m] eqn:Dc.
        - destruct (of_cbor x) as [v'|e'|] eqn:O; try discriminate.
          + eapply IV; [|eassumption|eassumption]. eapply use_cbor; eauto.
          + inversion H; subst. eexists AsType, c, _. split; eauto. eapply bad_cbor. right. eauto.
        - inversion H; subst. eexists AsType, c, _. split; eauto. eapply bad_cbor. left. eauto. }
      all: eexists AsType, c, _; (split; [eassumption|]);
        (eapply cmp_err; [constructor| | | |exact H|exact F]);
        [intros l' Hl; inversion Hl; eauto|intros p Hp; inversion Hp; auto|
         intros z; first [apply lt_checks|apply le_checks|apply gt_checks|apply ge_checks]].
    + eapply IC; [|eassumption|eassumption]. eapply use_one_of; eauto.
    + eapply MC; [|eassumption|eassumption]. intros i Hi. eapply use_inline; eauto.
  - intros m w c e w' Us H F.
    assert (Hel : forall t, element_of m = Some t -> validate_array_value X (fun v nd => validate X (lookup_rule lk) n v nd c) t w = Some (Err e, w') -> D e).
    { intros t Ht Hv. eapply AV; eauto. eapply use_element; eauto. }
    destruct m; cbn [validate_array_member] in H; try (eapply Hel; [reflexivity|exact H]); clear Hel.
    + destruct (L c name args) as [[nd' c']|e'|] eqn:E; [eapply IA; [|eassumption|eassumption]; eapply use_name; eauto|inversion H; subst|discriminate].
      exists AsArray, c, (NRule name args). split; auto. constructor; auto.
    + apply try_err in H. destruct H as [->|(o & w1 & Ho & H)]; [discriminate|]. eapply IA; [|eassumption|eassumption]. eapply use_choice; eauto.
    + unfold validate_array_group in H. destruct (seq_loop _ _ _) as [[[[]|e1|] w1]|] eqn:S; try discriminate; [destruct (wa_commit w1); discriminate|].
      apply seq_err in S. destruct S as (m1 & s1 & Hm & S). destruct (wa_rewind w1); inversion H; subst. eapply IA; [|eassumption|eassumption]. eapply use_group; eauto.
    + unfold validate_array_occur in H. destruct (limits limit) as [lo up]. destruct (occur_loop _ _ _ _ _) as [[[k|e1|] w1]|] eqn:S; try discriminate.
      * destruct (N.ltb _ _); inversion H; subst; discriminate.
      * apply occur_err in S. destruct S as (s1 & S). inversion H; subst. eapply IA; [|eassumption|eassumption]. eapply use_occur; eauto.
    + destruct (L c name args) as [[nd' c']|e'|] eqn:E; [|inversion H; subst|discriminate].
      2: { exists AsArray, c, (NUnwrap name args). split; auto. constructor; auto. }
      unfold validate_array_unwrap in H. destruct nd'; try (inversion H; subst; discriminate).
      apply seq_err in H. destruct H as (m1 & s1 & Hm & S). eapply IA; [|eassumption|eassumption]. eapply use_unwrap; eauto.
  - intros m w c e w' Us H F. destruct m; cbn [validate_map_member] in H;
      try (inversion H; subst; eexists AsMap, c, _; split; [eassumption|constructor; reflexivity]).
    + destruct (L c name args) as [[nd' c']|e'|] eqn:E; [eapply IM; [|eassumption|eassumption]; eapply use_name; eauto|inversion H; subst|discriminate].
      exists AsMap, c, (NRule name args). split; auto. constructor; auto.
    + unfold validate_map_choice in H. apply try_err in H. destruct H as [->|(o & w1 & Ho & H)]; [discriminate|]. eapply IM; [|eassumption|eassumption]. eapply use_choice; eauto.
    + unfold validate_map_group in H. destruct (seq_loop _ _ _) as [[[[]|e1|] w1]|] eqn:S; try discriminate; [destruct (wm_commit w1); discriminate|].
      apply seq_err in S. destruct S as (m1 & s1 & Hm & S). destruct (wm_rewind w1); inversion H; subst.
      destruct (is_fatal e1) eqn:F1; [|destruct e1; discriminate].
      replace (erase_mapcut e1) with e1 by (destruct e1; auto; discriminate). eapply IM; [|eassumption|eassumption]. eapply use_group; eauto.
    + unfold validate_map_keyvalue in H. destruct (validate_map_key _ _ _ _) as [[[k v]|e1|]|] eqn:K; try discriminate.
      * match type of H with match ?x with _ => _ end = _ => change x with (validate X (lookup_rule lk) n v m2 c) in H end.
        destruct (validate X (lookup_rule lk) n v m2 c) as [[[]|e1|]|] eqn:V; try discriminate; [destruct (wm_remove _ _); discriminate|].
        assert (Q : e1 = e \/ is_fatal e = false) by (destruct cut, e1; inversion H; subst; auto).
        destruct Q as [->|Q]; [|congruence]. eapply IV; [|eassumption|eassumption]. eapply use_entry; eauto.
      * exfalso. inversion H; subst. unfold validate_map_key in K.
        assert (Sr : forall f l fin, map_search_loop f l fin = Some (Err e) -> is_fatal fin = false -> False).
        { clear - F. intros f l fin. induction l as [|[k v] l IH]; cbn; intros H N; [congruence|].
          destruct (f k) as [[[]|e1|]|]; try discriminate. auto. }
        destruct m1; try (eapply Sr; [exact K|reflexivity]). unfold map_search_literal in K. destruct (wm_peek_at _ _); inversion K; subst; discriminate.
    + unfold validate_map_occur in H. destruct (limits limit) as [lo up]. destruct (occur_loop _ _ _ _ _) as [[[k|e1|] w1]|] eqn:S; try discriminate.
      * destruct (N.ltb _ _); inversion H; subst; discriminate.
      * apply occur_err in S. destruct S as (s1 & S). inversion H; subst. eapply IM; [|eassumption|eassumption]. eapply use_occur; eauto.
    + destruct (L c name args) as [[nd' c']|e'|] eqn:E; [|inversion H; subst|discriminate].
      2: { exists AsMap, c, (NUnwrap name args). split; auto. constructor; auto. }
      unfold validate_map_unwrap in H. destruct nd'; try (inversion H; subst; discriminate).
      apply seq_err in H. destruct H as (m1 & s1 & Hm & S). eapply IM; [|eassumption|eassumption]. eapply use_unwrap_m; eauto.
    + eapply IMC; [|eassumption|eassumption]. eapply use_one_of_m; eauto.
    + unfold validate_map_choice in H. apply try_err in H. destruct H as [->|(o & w1 & Ho & H)]; [discriminate|]. eapply IM; [|eassumption|eassumption]. eapply use_inline_m; eauto.
  - intros name args v c e Us H F. cbn [validate_choiceify] in H.
    destruct (L c name args) as [[nd' c']|e'|] eqn:E; [|inversion H; subst|discriminate].
    2: { exists AsOneOf, c, (NRule name args). split; auto. constructor; auto. }
    destruct nd'; try (inversion H; subst; exists AsOneOf, c, (NRule name args); split; auto; eapply bad_one_of; eauto; intros; discriminate).
    + eapply IC; [|eassumption|eassumption]. eapply use_one_of_alias; eauto.
    + eapply MC; [|eassumption|eassumption]. intros i Hi. eapply use_one_of_group; eauto.
  - intros name args w c e w' Us H F. cbn [validate_map_choiceify] in H.
    destruct (L c name args) as [[nd' c']|e'|] eqn:E; [|inversion H; subst|discriminate].
    2: { exists AsOneOfM, c, (NRule name args). split; auto. constructor; auto. }
    destruct nd'; try (inversion H; subst; exists AsOneOfM, c, (NRule name args); split; auto; eapply bad_one_of; eauto; intros; discriminate).
    + eapply IMC; [|eassumption|eassumption]. eapply use_one_of_alias; eauto.
    + eapply MMC; [|eassumption|eassumption]. intros i Hi. eapply use_one_of_group_m; eauto.
Qed.
Theorem val_defect v e : val X lk v nd0 c0 = Err e -> is_fatal e = true -> D e.
Proof.
  intros H F. destruct (val_spec X lk v nd0 c0) as (n & E). rewrite H in E.
  destruct (all_errors n) as (IV & _). eapply IV; eauto. constructor.
Qed.
End Defects.
