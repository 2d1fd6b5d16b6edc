(** A procedure that recognises wider schemas.

    It takes the names that occur in the old schema and those used there with [&]
    and with [~]; a wrong list only makes it answer [false]. *)
From Coq Require Import List Bool ZArith NArith String Lia.
From Verif Require Import Base Util Data Value Convert Ivt Scalar Validate Fun SpecBase ValueOrder SpecPeg SpecWiden.
Import ListNotations.
Open Scope list_scope.

Definition lit_eqb (a b : literal) : bool :=
  match a, b with
  | LBool x, LBool y => Bool.eqb x y
  | LInt x, LInt y => Z.eqb x y
  | LFloat x, LFloat y => N.eqb x y
  | LText x, LText y | LBytes x, LBytes y => text_eqb x y
  | _, _ => false
  end.
Definition prelude_le (p q : prelude) : bool :=
  match p, q with
  | _, PAny | PNil, PNil | PBool, PBool | PInt, PInt | PUint, PUint | PNint, PNint | PFloat, PFloat
  | PTstr, PTstr | PBstr, PBstr | PUint, PInt | PNint, PInt => true
  | _, _ => false
  end.
Definition yes {A} (r : res A) : bool := match r with Ok _ => true | _ => false end.
Definition leaf_b (t t' : node) : bool :=
  match t, t' with
  | NLiteral l, NLiteral l' => lit_eqb l l'
  | NPrelude p, NPrelude q => prelude_le p q
  | NLiteral l, NPrelude q => yes (validate_prelude_type q (value_of_literal l))
  | NRange (NLiteral (LInt a)) (NLiteral (LInt b)) i, NRange (NLiteral (LInt a')) (NLiteral (LInt b')) i' =>
      Bool.eqb i i' && Z.leb a' a && Z.leb b b'
  | NRange (NLiteral (LInt a)) (NLiteral (LInt b)) _, NPrelude PInt => true
  | NRange (NLiteral (LInt a)) (NLiteral (LInt b)) _, NPrelude PUint => Z.leb 0 a
  | NControl (CtlRegexp r), NControl (CtlRegexp r') => text_eqb r r'
  | NControl (CtlRegexp r), NPrelude PTstr => true
  | _, _ => false
  end.
(** The new optional member claims no key. *)
Definition claimless (m : node) : bool :=
  match m with
  | NKeyValue (NLiteral _) _ true | NRule _ _ => false
  | _ => true
  end.
Definition place_b (b : place) (ms : list node) (m' : node) : bool :=
  match b with
  | InArray => true
  | InMap => match ms with [] => true | _ => claimless m' end
  | InGroup => claimless m'
  end.
Definition opt_b (l l' : occur_limit) : bool :=
  N.leb (fst (bounds l')) (fst (bounds l)) && N.leb (snd (bounds l)) (snd (bounds l')) && N.leb 1 (snd (bounds l)).
Definition plain_item (i : node) : bool := match i with NKeyValue _ _ _ | NRule _ _ => false | _ => true end.
Definition has (l : list text) (x : text) : bool := existsb (text_eqb x) l.

Section Check.
Variables olds amps tildes : list text.

Section Args.
Variable f : node -> node -> bool.
Fixpoint all2 (l l' : list node) : bool :=
  match l, l' with
  | [], [] => true
  | x :: l1, y :: l1' => if f x y then all2 l1 l1' else false
  | _, _ => false
  end.
Fixpoint some (x : node) (l' : list node) : bool :=
  match l' with [] => false | y :: l1 => if f x y then true else some x l1 end.
Definition each (l l' : list node) : bool := forallb (fun x => some x l') l.
Definition item_b (i i' : node) : bool :=
  match i, i' with
  | NKeyValue _ t _, NKeyValue _ t' _ => f t t'
  | NRule n a, NRule n' a' => text_eqb n n' && has amps n && all2 a a'
  | _, _ => plain_item i && plain_item i' && f i i'
  end.
Fixpoint members_b (b : place) (ms' ms : list node) {struct ms'} : bool :=
  match ms' with
  | [] => match ms with [] => true | _ => false end
  | m' :: ms1' =>
      let same := match ms with m :: ms1 => if f m m' then members_b b ms1' ms1 else false | [] => false end in
      if same then true else
      match m' with
      | NOccur l m1 =>
          let opt := match ms with
            | m :: ms1 => if N.leb (fst (bounds l)) 1 && N.leb 1 (snd (bounds l)) && f m m1 then members_b b ms1' ms1 else false
            | [] => false end in
          if opt then true else
          if N.eqb (fst (bounds l)) 0 && place_b b ms m1 then members_b b ms1' ms else false
      | _ => false
      end
  end.
End Args.

Fixpoint wider_b (n : nat) (t t' : node) {struct n} : bool :=
  match n with
  | O => false
  | S n' =>
      let core :=
        if leaf_b t t' then true else
        match t, t' with
        | NRule name a, NRule name' a' => text_eqb name name' && has olds name && all2 (wider_b n') a a'
        | NChoice ts, NChoice ts' => each (wider_b n') ts ts'
        | NGroup ms, NGroup ms' => members_b (wider_b n') InGroup ms' ms &&
            match ms with [t1] => match ms' with [t1'] => wider_b n' t1 t1' | _ => false end | _ => true end
        | NArray ms, NArray ms' => members_b (wider_b n') InArray ms' ms
        | NMap ms, NMap ms' => members_b (wider_b n') InMap ms' ms
        | NControl (CtlCbor t1), NControl (CtlCbor t1') => wider_b n' t1 t1'
        | NKeyValue k t1 cut, NKeyValue k' t1' cut' => wider_b n' k k' && wider_b n' t1 t1' &&
            match k', cut' with
            | NLiteral l', true => match k with NLiteral l => lit_eqb l l' && cut | _ => false end
            | _, _ => true
            end
        | NOccur l m, NOccur l' m' => opt_b l l' && wider_b n' m m'
        | NUnwrap name a, NUnwrap name' a' => text_eqb name name' && has tildes name && all2 (wider_b n') a a'
        | NChoiceify name a, NChoiceify name' a' => text_eqb name name' && has amps name && all2 (wider_b n') a a'
        | NChoiceifyInline is, NChoiceifyInline is' => each (fun i i' => item_b (wider_b n') i i' && wider_b n' i i') is is'
        | _, NPrelude PAny => only_type t
        | _, _ => false
        end in
      if core then true else
      match t' with NChoice ts' => some (wider_b n') t ts' | _ => false end
  end.

Definition amp_b (n : nat) (t t' : node) : bool :=
  match t, t' with
  | NGroup is, NGroup is' => each (item_b (wider_b n)) is is'
  | NRule name a, NRule name' a' => text_eqb name name' && has amps name && all2 (wider_b n) a a'
  | NGroup _, _ | NRule _ _, _ => false
  | _, _ => true
  end.
Definition tilde_b (n : nat) (t t' : node) : bool :=
  match t, t' with
  | NArray ms, NArray ms' => members_b (wider_b n) InArray ms' ms
  | NMap ms, NMap ms' => members_b (wider_b n) InGroup ms' ms
  | NArray _, _ | NMap _, _ | _, NMap _ => false
  | _, _ => true
  end.
Definition rule_b (n : nat) (name : text) (d d' : rule_def) : bool :=
  match list_eq_dec (list_eq_dec N.eq_dec) (rd_parms d) (rd_parms d') with left _ => true | right _ => false end &&
  (negb (has olds name) || wider_b n (rd_node d) (rd_node d')) &&
  (negb (has amps name) || amp_b n (rd_node d) (rd_node d')) &&
  (negb (has tildes name) || tilde_b n (rd_node d) (rd_node d')).
Definition rules_b (n : nat) (rs rs' : rules) : bool :=
  forallb (fun name =>
    match rules_get rs name, rules_get rs' name with
    | Some d, Some d' => rule_b n name d d'
    | None, None => true
    | _, _ => false
    end) (olds ++ amps ++ tildes) &&
  forallb (fun r => forallb (fun p => negb (has amps p || has tildes p)) (rd_parms (snd r))) (rs ++ rs').

(** * The procedure is right *)
Variable X : ext.
Variables rs rs' : rules.
Notation lk := (basic_context rs).
Notation lk' := (basic_context rs').
Definition isold (x : text) := In x olds.
Definition isamp (x : text) := In x amps.
Definition istilde (x : text) := In x tildes.
Definition isplain (x : text) := In x amps \/ In x tildes.
Notation wider := (wider X lk lk' isold isplain isamp istilde).
Notation core := (core X lk lk' isold isplain isamp istilde).
Notation members := (members X lk lk' isold isplain isamp istilde).
Notation item := (item X lk lk' isold isplain isamp istilde).

Lemma lit_eqb_eq a b : lit_eqb a b = true -> a = b.
Proof.
  destruct a, b; cbn; try discriminate; intros H; f_equal.
  - apply eqb_prop; auto. - apply Z.eqb_eq; auto. - apply N.eqb_eq; auto. - apply text_eqb_eq; auto. - apply text_eqb_eq; auto.
Qed.
Lemma has_in l x : has l x = true <-> In x l.
Proof.
  unfold has. rewrite existsb_exists. split.
  - intros (y & I & E). apply text_eqb_eq in E. subst; auto.
  - intros I. exists x. split; auto. apply text_eqb_eq; auto.
Qed.
Ltac bools := repeat match goal with
  | H : (_ && _) = true |- _ => apply andb_true_iff in H; destruct H
  | H : N.leb _ _ = true |- _ => apply N.leb_le in H
  | H : N.eqb _ _ = true |- _ => apply N.eqb_eq in H
  | H : Z.leb _ _ = true |- _ => apply Z.leb_le in H
  | H : has _ _ = true |- _ => apply has_in in H
  | H : text_eqb _ _ = true |- _ => apply text_eqb_eq in H; try subst
  | H : Bool.eqb _ _ = true |- _ => apply eqb_prop in H; try subst
  | H : lit_eqb _ _ = true |- _ => apply lit_eqb_eq in H; try subst
  | H : (if ?c then _ else false) = true |- _ => destruct c eqn:?; [|discriminate H]
  end.

Lemma prelude_le_ok p q v : prelude_le p q = true -> validate_prelude_type p v = Ok tt -> validate_prelude_type q v = Ok tt.
Proof. destruct p, q; cbn; try discriminate; auto; destruct v; auto; try discriminate. Qed.
Lemma leaf_b_core t t' : leaf_b t t' = true -> core t t'.
Proof.
  intros H.
  assert (L : leaf t = true /\ leaf t' = true).
  { destruct t; cbn in H; try discriminate.
    - destruct t'; try discriminate; auto.
    - destruct t'; try discriminate; auto.
    - destruct t1 as [[]| | | | | | | | | | | | |]; try discriminate. destruct t2 as [[]| | | | | | | | | | | | |]; try discriminate.
      destruct t'; try discriminate; auto.
    - destruct c; try discriminate. destruct t'; try discriminate; auto. destruct c; try discriminate; auto. }
  destruct L as [L L']. apply wide_leaf; auto. intros c c' v _ _ _ E. rewrite val_eq in E |- *.
  destruct t; cbn in H; try discriminate.
  - destruct t'; try discriminate.
    + bools. exact E.
    + unfold validate_literal in E. destruct (veqb v (value_of_literal l)) eqn:Q; [|discriminate]. apply veqb_eq in Q. subst v.
      destruct (validate_prelude_type p (value_of_literal l)) as [[]| |]; auto; discriminate.
  - destruct t'; try discriminate. eapply prelude_le_ok; eauto.
  - destruct t1 as [[]| | | | | | | | | | | | |]; try discriminate. destruct t2 as [[]| | | | | | | | | | | | |]; try discriminate.
    rewrite !deref_eq in E. cbn in E. unfold range_compare in E. destruct v; try discriminate.
    match type of E with (if check_range _ _ ?a ?b ?x _ then _ else _) = _ => set (lo := a) in *; set (hi := b) in *; set (xx := x) in * end.
    destruct (check_range Z.ltb Z.leb lo hi xx inclusive) eqn:R; [|discriminate]. unfold check_range in R.
    destruct (Z.ltb_spec xx lo); [discriminate|].
    destruct t'; try discriminate.
    + destruct p; try discriminate; cbn; auto. bools. fold xx. destruct (Z.leb_spec 0 xx); auto. lia.
    + destruct t'1 as [[]| | | | | | | | | | | | |]; try discriminate. destruct t'2 as [[]| | | | | | | | | | | | |]; try discriminate.
      bools. rewrite !deref_eq. cbn. unfold check_range. fold xx. match goal with |- context [Z.ltb xx ?a] => destruct (Z.ltb_spec xx a); [lia|] end.
      destruct inclusive0.
      * apply Z.leb_le in R. match goal with |- context [Z.leb xx ?a] => destruct (Z.leb_spec xx a) end; auto; lia.
      * apply Z.ltb_lt in R. match goal with |- context [Z.ltb xx ?a] => destruct (Z.ltb_spec xx a) end; auto; lia.
  - destruct c0; try discriminate. destruct t'; try discriminate.
    + destruct p; try discriminate. cbn in E. unfold validate_control_regexp in E. destruct v; try discriminate. reflexivity.
    + destruct c0; try discriminate. bools. cbn in E |- *. exact E.
Qed.

Lemma claimless_ok l m c k : claimless m = true -> ~ claims lk' c (NOccur l m) k.
Proof. intros H C. inversion C; subst. match goal with H : claims_once _ _ _ _ |- _ => inversion H; subst end; discriminate. Qed.

Section Sound.
Variable f : node -> node -> bool.
Hypothesis Hf : forall t t', f t t' = true -> wider t t'.
Lemma all2_ok l : forall l', all2 f l l' = true -> Forall2 wider l l'.
Proof. induction l as [|x l IH]; intros [|y l']; cbn; try discriminate; [constructor|]. intros H. bools. constructor; auto. Qed.
Lemma item_b_ok i i' : item_b f i i' = true -> item i i'.
Proof.
  assert (G : plain_item i && plain_item i' && f i i' = true -> item i i').
  { intros H. bools. apply item_other; auto; [destruct i; auto; discriminate|destruct i'; auto; discriminate]. }
  intros H. destruct i; try (apply G; exact H); destruct i'; try (apply G; exact H); cbn in H.
  - bools. apply item_group; auto. apply all2_ok; auto.
  - apply item_type; auto.
Qed.
Lemma members_b_ok b ms' : forall ms, members_b f b ms' ms = true -> members b ms ms'.
Proof.
  induction ms' as [|m' ms' IH]; intros ms H; cbn in H; [destruct ms; [constructor|discriminate]|].
  destruct (match ms with m :: ms1 => if f m m' then members_b f b ms' ms1 else false | [] => false end) eqn:Same.
  { destruct ms as [|m ms]; [discriminate|]. bools. apply mem_same; auto. }
  clear Same. destruct m'; try discriminate.
  destruct (match ms with m :: ms1 => if N.leb (fst (bounds limit)) 1 && N.leb 1 (snd (bounds limit)) && f m m' then members_b f b ms' ms1 else false | [] => false end) eqn:Opt.
  { destruct ms as [|m ms]; [discriminate|]. bools. apply mem_optional; auto. }
  clear Opt. bools. apply mem_new; auto. unfold place_b in *. destruct b; auto.
  - destruct ms; auto. right. intros; apply claimless_ok; auto.
  - intros; apply claimless_ok; auto.
Qed.
End Sound.
Lemma some_ok (f : node -> node -> bool) (R : node -> node -> Prop) x l' : (forall t t', f t t' = true -> R t t') -> some f x l' = true -> Exists (R x) l'.
Proof. intros Hf. induction l' as [|y l' IH]; cbn; [discriminate|]. destruct (f x y) eqn:E; intros H; [left; auto|right; auto]. Qed.
Lemma each_ok (f : node -> node -> bool) (R : node -> node -> Prop) l l' : (forall t t', f t t' = true -> R t t') -> each f l l' = true ->
  Forall (fun x => Exists (R x) l') l.
Proof.
  intros Hf H. unfold each in H. rewrite forallb_forall in H. rewrite Forall_forall. intros x I. eapply some_ok; eauto.
Qed.

Lemma wider_b_ok n : forall t t', wider_b n t t' = true -> wider t t'.
Proof.
  induction n as [|n IH]; intros t t' H; cbn [wider_b] in H; [discriminate|].
  match type of H with (if ?c then _ else _) = _ => destruct c eqn:Core end.
  2: { destruct t'; try discriminate. apply (some_ok _ wider) in H; auto. apply Exists_exists in H. destruct H as (t1 & I & W). eapply wide_option; eauto. }
  clear H. apply wide_core. destruct (leaf_b t t') eqn:Lf; [apply leaf_b_core; auto|]. clear Lf.
  assert (Any : forall p, t' = NPrelude p -> (p = PAny -> only_type t = true) -> p = PAny -> core t t').
  { intros p -> O ->. apply wide_any; auto. }
  destruct t, t'; try discriminate Core; try (destruct p; try discriminate Core; apply wide_any; exact Core);
    try (destruct p0; try discriminate Core; apply wide_any; exact Core);
    try (destruct c; discriminate Core); try (destruct c; destruct p; try discriminate Core; apply wide_any; exact Core).
  - bools. apply wide_name; auto. eapply all2_ok; eauto.
  - apply wide_choice. eapply each_ok; eauto.
  - apply wide_map. eapply members_b_ok; eauto.
  - apply wide_array. eapply members_b_ok; eauto.
  - bools. apply wide_group; [eapply members_b_ok; eauto|]. intros t ->. match goal with |- exists _, ?l = _ /\ _ => destruct l as [|t1 [|]]; try discriminate end. eauto.
  - bools. apply wide_entry; auto. intros l -> ->. destruct t1; try discriminate. bools. subst. auto.
  - bools. unfold opt_b in *. bools. apply wide_occur; auto.
  - bools. apply wide_unwrap; auto. eapply all2_ok; eauto.
  - destruct c, c0; try discriminate. apply wide_cbor; auto.
  - bools. apply wide_one_of; auto. eapply all2_ok; eauto.
  - apply wide_inline. apply (each_ok _ (fun i i' => item i i' /\ wider i i')) in Core; auto.
    intros t t' H. bools. split; auto. eapply item_b_ok; eauto.
Qed.

Lemma amp_b_ok n t t' : amp_b n t t' = true -> amp_body X lk lk' isold isplain isamp istilde t t'.
Proof.
  intros H. destruct t; try (apply amp_none; congruence); destruct t'; try discriminate; cbn in H.
  - bools. apply amp_alias; auto. eapply all2_ok; eauto. apply wider_b_ok.
  - apply amp_group. eapply each_ok; eauto. intros. eapply item_b_ok; eauto. apply wider_b_ok.
Qed.
Lemma tilde_b_ok n t t' : tilde_b n t t' = true -> tilde_body X lk lk' isold isplain isamp istilde t t'.
Proof.
  intros H. destruct t; destruct t'; try discriminate; try (apply tilde_none; congruence); cbn in H.
  - apply tilde_map. eapply members_b_ok; eauto. apply wider_b_ok.
  - apply tilde_array. eapply members_b_ok; eauto. apply wider_b_ok.
Qed.
Lemma rules_get_in rs0 name d : rules_get rs0 name = Some d -> exists k, In (k, d) rs0.
Proof.
  induction rs0 as [|[k d0] l IH]; cbn; [discriminate|]. destruct (text_eqb k name).
  - intros [= ->]; eauto. - intros H. destruct (IH H) as (k' & ?); eauto.
Qed.
Lemma rules_b_ok n : rules_b n rs rs' = true -> rules_widened X lk lk' isold isplain isamp istilde.
Proof.
  intros H. unfold rules_b in H. bools. rewrite forallb_forall in H, H0. constructor.
  - intros name O. assert (I : In name (olds ++ amps ++ tildes)) by (rewrite !in_app_iff; exact O). specialize (H _ I). clear I O. unfold basic_context. destruct (rules_get rs name) as [d|], (rules_get rs' name) as [d'|]; try discriminate; auto.
    unfold rule_b in H. bools. destruct (list_eq_dec _ _ _) as [P|]; [|discriminate]. split; [auto|].
    split; [|split]; intros I; match goal with H : (negb (has ?l _) || _) = true |- _ => assert (has l name = true) as Q by (apply has_in; exact I); rewrite Q in H; cbn in H end.
    + eapply wider_b_ok; eauto.
    + eapply amp_b_ok; eauto.
    + eapply tilde_b_ok; eauto.
  - intros name d p G I Pl.
    assert (exists k, In (k, d) (rs ++ rs')) as (k & K).
    { unfold basic_context in G. destruct G as [G|G].
      - destruct (rules_get rs name) eqn:E; [|discriminate]. injection G as <-. apply rules_get_in in E. destruct E as (k & K). exists k. apply in_or_app; auto.
      - destruct (rules_get rs' name) eqn:E; [|discriminate]. injection G as <-. apply rules_get_in in E. destruct E as (k & K). exists k. apply in_or_app; auto. }
    specialize (H0 _ K). cbn in H0. rewrite forallb_forall in H0. specialize (H0 _ I). apply negb_true_iff, orb_false_iff in H0.
    destruct H0 as [A T]. destruct Pl as [Pl|Pl]; apply has_in in Pl; congruence.
  - intros name I. left; auto.
  - intros name I. right; auto.
Qed.
End Check.
