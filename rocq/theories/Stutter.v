(** A simulation between two instances of the validator that run on different
    schema trees: the left tree may contain references where the right tree has
    the referenced definition written in place. *)
From Coq Require Import List Bool ZArith NArith String Lia Arith.
From Verif Require Import Base Util Data Value Convert Ivt Scalar Validate Unfold Mono Fun SpecBase ValueOrder
  ArrayInv MapInv ConvertProofs NoPanic SpecVerdict Frame.
Import ListNotations.

(** [a] is undefined, panics, or both are defined with the same verdict. *)
Definition ve {A} (a b : option (res A)) : Prop :=
  a = None \/ a = Some Panic \/ exists r1 r2, a = Some r1 /\ b = Some r2 /\ same_verdict r1 r2.
Definition ves {A S} (a b : option (res A * S)) : Prop :=
  a = None \/ (exists s, a = Some (Panic, s)) \/
  exists r1 r2 s, a = Some (r1, s) /\ b = Some (r2, s) /\ same_verdict r1 r2.

Lemma sv_refl {A} (r : res A) : r <> Panic -> same_verdict r r.
Proof. destruct r; cbn; auto. Qed.
Lemma ve_none {A} (b : option (res A)) : ve None b. Proof. left; auto. Qed.
Lemma ves_none {A S} (b : option (res A * S)) : ves None b. Proof. left; auto. Qed.
Lemma ve_panic {A} (b : option (res A)) : ve (Some Panic) b. Proof. right; left; auto. Qed.
Lemma ves_panic {A S} s (b : option (res A * S)) : ves (Some (Panic, s)) b. Proof. right; left; eauto. Qed.
Lemma ve_some {A} (r1 r2 : res A) : same_verdict r1 r2 -> ve (Some r1) (Some r2).
Proof. right; right; eauto. Qed.
Lemma ves_some {A S} (r1 r2 : res A) (s : S) : same_verdict r1 r2 -> ves (Some (r1, s)) (Some (r2, s)).
Proof. right; right; eauto 8. Qed.
Lemma ve_refl {A} (r : option (res A)) : ve r r.
Proof. destruct r as [[a|e|]|]; auto using ve_none, ve_panic; apply ve_some; cbn; auto. Qed.
Lemma ves_refl {A S} (r : option (res A * S)) : ves r r.
Proof. destruct r as [[[a|e|] s]|]; auto using ves_none, ves_panic; apply ves_some; cbn; auto. Qed.
Global Hint Resolve ve_none ves_none ve_panic ves_panic ve_some ves_some ve_refl ves_refl : ve.

Lemma ve_mono {A} (a b b' : option (res A)) : ve a b -> le_opt b b' -> ve a b'.
Proof.
  intros [H|[H|(r1 & r2 & Ha & Hb & S)]] L; [left; auto|right; left; auto|right; right].
  exists r1, r2. repeat split; auto. eapply le_opt_some; eauto.
Qed.
Lemma ves_mono {A S} (a b b' : option (res A * S)) : ves a b -> le_opt b b' -> ves a b'.
Proof.
  intros [H|[H|(r1 & r2 & s & Ha & Hb & V)]] L; [left; auto|right; left; auto|right; right].
  exists r1, r2, s. repeat split; auto. eapply le_opt_some; eauto.
Qed.

Lemma fatal_kind e1 e2 : error_kind e1 = error_kind e2 -> is_fatal e1 = is_fatal e2.
Proof. destruct e1, e2; cbn; congruence. Qed.
Lemma mismatch_kind e1 e2 : error_kind e1 = error_kind e2 -> is_mismatch e1 = is_mismatch e2.
Proof. destruct e1, e2; cbn; congruence. Qed.
Lemma erase_kind e1 e2 : error_kind e1 = error_kind e2 ->
  error_kind (erase_mapcut e1) = error_kind (erase_mapcut e2).
Proof. destruct e1, e2; cbn; congruence. Qed.

Ltac ves_cases H r1 r2 s V :=
  let HB := fresh "HB" in
  destruct H as [H|[[s H]|(r1 & r2 & s & H & HB & V)]]; [rewrite H; auto with ve..|rewrite H, HB; clear HB].
Ltac ve_cases H r1 r2 V :=
  let HB := fresh "HB" in
  destruct H as [H|[H|(r1 & r2 & H & HB & V)]]; [rewrite H; auto with ve..|rewrite H, HB; clear HB].

Section Loops.
Context {St : Type}.
Variable I : St -> Prop.

Lemma try_ve (f g : node -> St -> option (res unit * St)) stop1 stop2 os1 os2 fin1 fin2 s :
  (forall e1 e2, error_kind e1 = error_kind e2 -> stop1 e1 = stop2 e2) ->
  error_kind fin1 = error_kind fin2 ->
  Forall2 (fun o1 o2 => forall s, I s -> ves (f o1 s) (g o2 s)) os1 os2 ->
  (forall o s r s', In o os1 -> I s -> f o s = Some (r, s') -> r <> Panic -> I s') -> I s ->
  ves (try_loop stop1 f os1 fin1 s) (try_loop stop2 g os2 fin2 s).
Proof.
  intros Hst Hfin H Hinv; revert s; induction H as [|o1 o2 os1 os2 Ho Hos IH]; intros s Hs; cbn.
  { auto with ve. }
  pose proof (Ho s Hs) as V. pose proof (fun r s' => Hinv o1 s r s' (or_introl eq_refl) Hs) as Hi.
  ves_cases V r1 r2 s' K. destruct r1, r2; cbn in K; try contradiction; auto with ve.
  rewrite (Hst e e0 K). destruct (stop2 e0); auto with ve.
  apply IH. - intros o s0 r s1 Ho1; apply Hinv; right; auto. - apply (Hi _ _ V). discriminate.
Qed.

Lemma seq_ve (f g : node -> St -> option (res unit * St)) os1 os2 s :
  Forall2 (fun o1 o2 => forall s, I s -> ves (f o1 s) (g o2 s)) os1 os2 ->
  (forall o s r s', In o os1 -> I s -> f o s = Some (r, s') -> r <> Panic -> I s') -> I s ->
  ves (seq_loop f os1 s) (seq_loop g os2 s).
Proof.
  intros H Hinv; revert s; induction H as [|o1 o2 os1 os2 Ho Hos IH]; intros s Hs; cbn.
  { auto with ve. }
  pose proof (Ho s Hs) as V. pose proof (fun r s' => Hinv o1 s r s' (or_introl eq_refl) Hs) as Hi.
  ves_cases V r1 r2 s' K. destruct r1, r2; cbn in K; try contradiction; auto with ve.
  apply IH. - intros o s0 r s1 Ho1; apply Hinv; right; auto. - apply (Hi _ _ V). discriminate.
Qed.

Lemma occur_ve (f g : St -> option (res unit * St)) n upper count s :
  (forall s, I s -> ves (f s) (g s)) ->
  (forall s r s', I s -> f s = Some (r, s') -> r <> Panic -> I s') -> I s ->
  ves (occur_loop n f upper count s) (occur_loop n g upper count s).
Proof.
  intros H Hinv; revert count s; induction n as [|n IH]; intros count s Hs; cbn; auto with ve.
  pose proof (H s Hs) as V. pose proof (fun r s' => Hinv s r s' Hs) as Hi.
  ves_cases V r1 r2 s' K. destruct r1, r2; cbn in K; try contradiction; auto with ve.
  - destruct (N.leb upper (count + 1)); auto with ve. apply IH. apply (Hi _ _ V). discriminate.
  - rewrite (mismatch_kind e e0 K). destruct (is_mismatch e0); auto with ve.
Qed.
End Loops.

Lemma try_pure_ve (f g : node -> option (res unit)) os1 os2 fin1 fin2 :
  error_kind fin1 = error_kind fin2 ->
  Forall2 (fun o1 o2 => ve (f o1) (g o2)) os1 os2 ->
  ve (try_loop_pure is_fatal f os1 fin1) (try_loop_pure is_fatal g os2 fin2).
Proof.
  intros Hfin H; induction H as [|o1 o2 os1 os2 Ho Hos IH]; cbn; auto with ve.
  ve_cases Ho r1 r2 K. destruct r1, r2; cbn in K; try contradiction; auto with ve.
  rewrite (fatal_kind e e0 K). destruct (is_fatal e0); auto with ve.
Qed.

Lemma search_ve (f g : value -> option (res unit)) l fin1 fin2 :
  error_kind fin1 = error_kind fin2 ->
  (forall k v, In (k, v) l -> ve (f k) (g k)) ->
  ve (map_search_loop f l fin1) (map_search_loop g l fin2).
Proof.
  intros Hfin H; induction l as [|[k v] l IH]; cbn; auto with ve.
  pose proof (H k v (or_introl eq_refl)) as V.
  ve_cases V r1 r2 K. destruct r1, r2; cbn in K; try contradiction; auto with ve.
  apply IH. intros k' v' Hin. apply (H k' v'). right; auto.
Qed.

Lemma obind_ve {A B} (a b : option (res A)) (f g : A -> option (res B)) :
  ve a b -> (forall x, ve (f x) (g x)) -> ve (obind a f) (obind b g).
Proof.
  intros H Hf. destruct H as [->|[->|(r1 & r2 & -> & -> & K)]]; [cbn; auto with ve..|].
  destruct r1, r2; cbn in *; try contradiction; subst; auto with ve.
Qed.

(** Searching for the key that equals a literal, in a map sorted by key. *)
Lemma search_literal X l m fin : sorted m ->
  map_search_loop (fun k => Some (validate_literal X l k)) m fin =
    Some (match bt_get (value_of_literal l) m with
          | Some v => Ok (value_of_literal l, v)
          | None => Err fin
          end).
Proof.
  induction m as [|[k v] m IH]; intros S; cbn; auto.
  apply sorted_cons_inv in S. destruct S as [S F]. unfold validate_literal at 1.
  destruct (veqb k (value_of_literal l)) eqn:E.
  - apply veqb_eq in E. subst. rewrite vcompare_refl. reflexivity.
  - rewrite (IH S). apply veqb_neq in E.
    destruct (vcompare (value_of_literal l) k) eqn:Cm; auto.
    + apply vcompare_eq in Cm. congruence.
    + destruct (bt_get (value_of_literal l) m) as [v'|] eqn:G; auto.
      apply (bt_get_in _ _ _ S) in G. rewrite Forall_forall in F. specialize (F _ G).
      unfold klt in F; cbn in F. pose proof (vcompare_trans _ _ _ Cm F) as H.
      rewrite vcompare_refl in H. discriminate.
Qed.

Section Stutter.
Variable X : ext.
Context {C1 C2 : Type}.
Variable l1 : C1 -> text -> list node -> res (node * C1).
Variable l2 : C2 -> text -> list node -> res (node * C2).
(** Related trees in their contexts, related arguments of [.size], and related
    targets of [~] and [&]. *)
Variable E : C1 -> node -> C2 -> node -> Prop.
Variable Z : C1 -> node -> C2 -> node -> Prop.
Variable T : C1 -> text -> list node -> C2 -> text -> list node -> Prop.

Definition look (Q : C1 -> node -> C2 -> node -> Prop) c1 nm1 a1 c2 nm2 a2 : Prop :=
  match l1 c1 nm1 a1 with
  | Ok (m1, c1') => exists m2 c2', l2 c2 nm2 a2 = Ok (m2, c2') /\ Q c1' m1 c2' m2
  | Err e => exists e', l2 c2 nm2 a2 = Err e' /\ error_kind e = error_kind e'
  | Panic => True
  end.

(** Members of a group turned into a choice. *)
Inductive item c1 c2 : node -> node -> Prop :=
| item_kv k1 v1 cut1 k2 v2 cut2 : E c1 v1 c2 v2 -> item c1 c2 (NKeyValue k1 v1 cut1) (NKeyValue k2 v2 cut2)
| item_rule nm1 a1 nm2 a2 : T c1 nm1 a1 c2 nm2 a2 -> item c1 c2 (NRule nm1 a1) (NRule nm2 a2)
| item_other i1 i2 :
    (forall k v b, i1 <> NKeyValue k v b) -> (forall nm a, i1 <> NRule nm a) ->
    (forall k v b, i2 <> NKeyValue k v b) -> (forall nm a, i2 <> NRule nm a) ->
    E c1 i1 c2 i2 -> item c1 c2 i1 i2.

(** What [~] and [&] see of a definition. *)
Inductive top c1 c2 : node -> node -> Prop :=
| top_array ms1 ms2 : Forall2 (fun a b => E c1 a c2 b) ms1 ms2 -> top c1 c2 (NArray ms1) (NArray ms2)
| top_map ms1 ms2 : Forall2 (fun a b => E c1 a c2 b) ms1 ms2 -> top c1 c2 (NMap ms1) (NMap ms2)
| top_group ms1 ms2 : Forall2 (item c1 c2) ms1 ms2 -> top c1 c2 (NGroup ms1) (NGroup ms2)
| top_rule nm1 a1 nm2 a2 : T c1 nm1 a1 c2 nm2 a2 -> top c1 c2 (NRule nm1 a1) (NRule nm2 a2)
| top_other n1 n2 :
    (forall l, n1 <> NArray l) -> (forall l, n1 <> NMap l) -> (forall l, n1 <> NGroup l) ->
    (forall nm a, n1 <> NRule nm a) ->
    (forall l, n2 <> NArray l) -> (forall l, n2 <> NMap l) -> (forall l, n2 <> NGroup l) ->
    (forall nm a, n2 <> NRule nm a) -> top c1 c2 n1 n2.

(** The end of a range under [.size]: the same literal, or no literal on either side. *)
Definition same_end (n1 n2 : node) : Prop :=
  (exists l, n1 = NLiteral l /\ n2 = NLiteral l) \/
  ((forall l, n1 <> NLiteral l) /\ (forall l, n2 <> NLiteral l)).
(** What [.size] sees of its argument. *)
Inductive size_shape c1 c2 : node -> node -> Prop :=
| zs_rule nm1 a1 nm2 a2 : look Z c1 nm1 a1 c2 nm2 a2 -> size_shape c1 c2 (NRule nm1 a1) (NRule nm2 a2)
| zs_literal l : size_shape c1 c2 (NLiteral l) (NLiteral l)
| zs_range s1 e1 s2 e2 incl : same_end s1 s2 -> same_end e1 e2 ->
    size_shape c1 c2 (NRange s1 e1 incl) (NRange s2 e2 incl)
| zs_other n1 n2 :
    (forall nm a, n1 <> NRule nm a) -> (forall l, n1 <> NLiteral l) -> (forall s e i, n1 <> NRange s e i) ->
    (forall nm a, n2 <> NRule nm a) -> (forall l, n2 <> NLiteral l) -> (forall s e i, n2 <> NRange s e i) ->
    size_shape c1 c2 n1 n2.

Inductive same_control c1 c2 : control node -> control node -> Prop :=
| sc_size a1 b1 a2 b2 : E c1 a1 c2 a2 -> Z c1 b1 c2 b2 -> same_control c1 c2 (CtlSize a1 b1) (CtlSize a2 b2)
| sc_lt a1 b1 a2 b2 : E c1 a1 c2 a2 -> E c1 b1 c2 b2 -> same_control c1 c2 (CtlLt a1 b1) (CtlLt a2 b2)
| sc_le a1 b1 a2 b2 : E c1 a1 c2 a2 -> E c1 b1 c2 b2 -> same_control c1 c2 (CtlLe a1 b1) (CtlLe a2 b2)
| sc_gt a1 b1 a2 b2 : E c1 a1 c2 a2 -> E c1 b1 c2 b2 -> same_control c1 c2 (CtlGt a1 b1) (CtlGt a2 b2)
| sc_ge a1 b1 a2 b2 : E c1 a1 c2 a2 -> E c1 b1 c2 b2 -> same_control c1 c2 (CtlGe a1 b1) (CtlGe a2 b2)
| sc_regexp re : same_control c1 c2 (CtlRegexp re) (CtlRegexp re)
| sc_cbor a1 a2 : E c1 a1 c2 a2 -> same_control c1 c2 (CtlCbor a1) (CtlCbor a2).

(** Members of an array ([arr]) or map: a group, or a name that leads to a group,
    or [~] and the name of an array or map, may have been replaced by its
    members. *)
Inductive splices (arr : bool) : C1 -> C2 -> list node -> list node -> Prop :=
| sp_nil c1 c2 : splices arr c1 c2 [] []
| sp_cons c1 c2 a b r1 r2 : E c1 a c2 b -> splices arr c1 c2 r1 r2 -> splices arr c1 c2 (a :: r1) (b :: r2)
| sp_group c1 c2 ms1 ms2 r1 r2 : splices arr c1 c2 ms1 ms2 -> splices arr c1 c2 r1 r2 ->
    splices arr c1 c2 (NGroup ms1 :: r1) (ms2 ++ r2)
| sp_rule c1 c2 nm a m c1' ms2 r1 r2 : l1 c1 nm a = Ok (m, c1') -> splices arr c1' c2 [m] ms2 ->
    splices arr c1 c2 r1 r2 -> splices arr c1 c2 (NRule nm a :: r1) (ms2 ++ r2)
| sp_rule_limit c1 c2 nm a r1 ms2 : l1 c1 nm a = Panic -> splices arr c1 c2 (NRule nm a :: r1) ms2
| sp_unwrap c1 c2 nm a m c1' ms1 ms2 r1 r2 : l1 c1 nm a = Ok (m, c1') ->
    m = (if arr then NArray ms1 else NMap ms1) -> splices arr c1' c2 ms1 ms2 ->
    splices arr c1 c2 r1 r2 -> splices arr c1 c2 (NUnwrap nm a :: r1) (ms2 ++ r2)
| sp_unwrap_limit c1 c2 nm a r1 ms2 : l1 c1 nm a = Panic -> splices arr c1 c2 (NUnwrap nm a :: r1) ms2.

Lemma splices_all arr c1 c2 ms1 ms2 : Forall2 (fun a b => E c1 a c2 b) ms1 ms2 -> splices arr c1 c2 ms1 ms2.
Proof. induction 1; constructor; auto. Qed.

Inductive shape c1 c2 : node -> node -> Prop :=
| sh_literal l : shape c1 c2 (NLiteral l) (NLiteral l)
| sh_prelude p : shape c1 c2 (NPrelude p) (NPrelude p)
| sh_rule nm1 a1 nm2 a2 : look E c1 nm1 a1 c2 nm2 a2 -> shape c1 c2 (NRule nm1 a1) (NRule nm2 a2)
| sh_choice os1 os2 : Forall2 (fun a b => E c1 a c2 b) os1 os2 -> shape c1 c2 (NChoice os1) (NChoice os2)
| sh_map os1 os2 : splices false c1 c2 os1 os2 -> shape c1 c2 (NMap os1) (NMap os2)
| sh_array os1 os2 : splices true c1 c2 os1 os2 -> shape c1 c2 (NArray os1) (NArray os2)
| sh_group os1 os2 : Forall2 (fun a b => E c1 a c2 b) os1 os2 -> shape c1 c2 (NGroup os1) (NGroup os2)
| sh_kv k1 v1 k2 v2 cut : E c1 k1 c2 k2 -> E c1 v1 c2 v2 -> shape c1 c2 (NKeyValue k1 v1 cut) (NKeyValue k2 v2 cut)
| sh_occur l l' n1 n2 : bounds l = bounds l' -> E c1 n1 c2 n2 -> shape c1 c2 (NOccur l n1) (NOccur l' n2)
| sh_unwrap nm1 a1 nm2 a2 : T c1 nm1 a1 c2 nm2 a2 -> shape c1 c2 (NUnwrap nm1 a1) (NUnwrap nm2 a2)
| sh_range s1 e1 s2 e2 incl : E c1 s1 c2 s2 -> E c1 e1 c2 e2 -> shape c1 c2 (NRange s1 e1 incl) (NRange s2 e2 incl)
| sh_control x y : same_control c1 c2 x y -> shape c1 c2 (NControl x) (NControl y)
| sh_choiceify nm1 a1 nm2 a2 : T c1 nm1 a1 c2 nm2 a2 -> shape c1 c2 (NChoiceify nm1 a1) (NChoiceify nm2 a2)
| sh_inline ms1 ms2 : Forall2 (item c1 c2) ms1 ms2 -> Forall2 (fun a b => E c1 a c2 b) ms1 ms2 ->
    shape c1 c2 (NChoiceifyInline ms1) (NChoiceifyInline ms2).

(** Related trees: either the left one is a reference that leads to a related
    tree, or both have the same shape. *)
Hypothesis E_cases : forall c1 n1 c2 n2, E c1 n1 c2 n2 ->
  (exists nm a, n1 = NRule nm a /\
     match l1 c1 nm a with Ok (m1, c1') => E c1' m1 c2 n2 | Err _ => False | Panic => True end) \/
  shape c1 c2 n1 n2.
Hypothesis Z_cases : forall c1 n1 c2 n2, Z c1 n1 c2 n2 ->
  (exists nm a, n1 = NRule nm a /\
     match l1 c1 nm a with Ok (m1, c1') => Z c1' m1 c2 n2 | Err _ => False | Panic => True end) \/
  size_shape c1 c2 n1 n2.
Hypothesis T_look : forall c1 nm1 a1 c2 nm2 a2, T c1 nm1 a1 c2 nm2 a2 ->
  look (fun c1' m1 c2' m2 => top c1' c2' m1 m2) c1 nm1 a1 c2 nm2 a2.

Lemma deref_ve n : forall c1 c2 n1 n2, E c1 n1 c2 n2 ->
  ve (deref_range_rule l1 n n1 c1) (deref_range_rule l2 n n2 c2).
Proof.
  induction n as [|n IH]; intros c1 c2 n1 n2 H; [cbn; auto with ve|].
  destruct (E_cases _ _ _ _ H) as [(nm & a & -> & L)|S].
  - eapply ve_mono; [|apply (deref_mono l2 n (S n)); lia]. cbn.
    destruct (l1 c1 nm a) as [[m1 c1']|e|]; [auto|contradiction|auto with ve].
  - destruct S; cbn; auto with ve.
    unfold look in H0. destruct (l1 c1 nm1 a1) as [[m1 c1']|e|]; auto with ve.
    + destruct H0 as (m2 & c2' & -> & L). auto.
    + destruct H0 as (e' & -> & L). auto with ve.
Qed.

Lemma chase_ve {R} (f : node -> res R) n :
  (forall c1 c2 n1 n2, shape c1 c2 n1 n2 -> (forall nm a, n1 <> NRule nm a) -> ve (Some (f n1)) (Some (f n2))) ->
  forall c1 c2 n1 n2, E c1 n1 c2 n2 -> ve (chase_rules l1 n f n1 c1) (chase_rules l2 n f n2 c2).
Proof.
  intros Hf; induction n as [|n IH]; intros c1 c2 n1 n2 H; [cbn; auto with ve|].
  destruct (E_cases _ _ _ _ H) as [(nm & a & -> & L)|S].
  - eapply ve_mono; [|apply (chase_mono l2 n (S n)); lia]. cbn.
    destruct (l1 c1 nm a) as [[m1 c1']|e|]; [auto|contradiction|auto with ve].
  - pose proof (Hf c1 c2 n1 n2 S) as Hs.
    destruct S; cbn in *; try (apply Hs; discriminate).
    unfold look in H0. destruct (l1 c1 nm1 a1) as [[m1 c1']|e|]; auto with ve.
    + destruct H0 as (m2 & c2' & -> & L). auto.
    + destruct H0 as (e' & -> & L). auto with ve.
Qed.

Lemma f_normalize c1 c2 n1 n2 : size_shape c1 c2 n1 n2 -> (forall nm a, n1 <> NRule nm a) ->
  ve (Some (normalize_size_range X n1)) (Some (normalize_size_range X n2)).
Proof.
  intros S H. destruct S as [nm1 a1 nm2 a2 L|l|s1 e1 s2 e2 incl Hs He|m1 m2 P1 P2 P3 P4 P5 P6].
  - exfalso; eapply H; reflexivity.
  - auto with ve.
  - cbn [normalize_size_range].
    destruct Hs as [(l & -> & ->)|(Hs1 & Hs2)].
    + destruct l; try (apply ve_some; cbn; auto; fail).
      destruct He as [(l & -> & ->)|(He1 & He2)]; [auto with ve|].
      destruct e1; try (exfalso; eapply He1; reflexivity); destruct e2; try (exfalso; eapply He2; reflexivity);
        apply ve_some; cbn; auto.
    + destruct s1; try (exfalso; eapply Hs1; reflexivity); destruct s2; try (exfalso; eapply Hs2; reflexivity);
        apply ve_some; cbn; auto.
  - destruct m1; try (exfalso; eapply P1; reflexivity); try (exfalso; eapply P2; reflexivity);
      try (exfalso; eapply P3; reflexivity);
      destruct m2; try (exfalso; eapply P4; reflexivity); try (exfalso; eapply P5; reflexivity);
      try (exfalso; eapply P6; reflexivity); apply ve_some; cbn; auto.
Qed.
Lemma chase_size_ve n : forall c1 c2 n1 n2, Z c1 n1 c2 n2 ->
  ve (chase_rules l1 n (normalize_size_range X) n1 c1) (chase_rules l2 n (normalize_size_range X) n2 c2).
Proof.
  induction n as [|n IH]; intros c1 c2 n1 n2 H; [cbn; auto with ve|].
  destruct (Z_cases _ _ _ _ H) as [(nm & a & -> & L)|S].
  - eapply ve_mono; [|apply (chase_mono l2 n (S n)); lia]. cbn.
    destruct (l1 c1 nm a) as [[m1 c1']|e|]; [auto|contradiction|auto with ve].
  - pose proof (f_normalize c1 c2 n1 n2 S) as Hs.
    destruct S as [nm1 a1 nm2 a2 L|l|s1 e1 s2 e2 incl Hx He|m1 m2 P1 P2 P3 P4 P5 P6].
    + cbn. unfold look in L. destruct (l1 c1 nm1 a1) as [[m1 c1']|e|]; auto with ve.
      * destruct L as (m2 & c2' & -> & L). auto.
      * destruct L as (e' & -> & L). auto with ve.
    + cbn. apply Hs. discriminate.
    + cbn [chase_rules]. apply Hs. discriminate.
    + specialize (Hs P1). destruct m1; try (exfalso; eapply P1; reflexivity);
        destruct m2; try (exfalso; eapply P4; reflexivity); exact Hs.
Qed.
Lemma f_limit op c1 c2 n1 n2 : shape c1 c2 n1 n2 -> (forall nm a, n1 <> NRule nm a) ->
  ve (Some (cmp_limit X op n1)) (Some (cmp_limit X op n2)).
Proof. intros S H; destruct S; cbn [cmp_limit]; auto with ve; apply ve_some; cbn; auto. Qed.
Lemma f_size sz v c1 c2 n1 n2 : shape c1 c2 n1 n2 -> (forall nm a, n1 <> NRule nm a) ->
  ve (Some (size_target X sz v n1)) (Some (size_target X sz v n2)).
Proof. intros S H; destruct S; cbn [size_target]; auto with ve; apply ve_some; cbn; auto. Qed.
Lemma f_lt z v c1 c2 n1 n2 : shape c1 c2 n1 n2 -> (forall nm a, n1 <> NRule nm a) ->
  ve (Some (lt_target X z v n1)) (Some (lt_target X z v n2)).
Proof. intros S H; destruct S; cbn [lt_target]; auto with ve; apply ve_some; cbn; auto. Qed.
Lemma f_le z v c1 c2 n1 n2 : shape c1 c2 n1 n2 -> (forall nm a, n1 <> NRule nm a) ->
  ve (Some (le_target X z v n1)) (Some (le_target X z v n2)).
Proof. intros S H; destruct S; cbn [le_target]; auto with ve; apply ve_some; cbn; auto. Qed.
Lemma f_gt z v c1 c2 n1 n2 : shape c1 c2 n1 n2 -> (forall nm a, n1 <> NRule nm a) ->
  ve (Some (gt_target X z v n1)) (Some (gt_target X z v n2)).
Proof. intros S H; destruct S; cbn [gt_target]; auto with ve; apply ve_some; cbn; auto. Qed.
Lemma f_ge z v c1 c2 n1 n2 : shape c1 c2 n1 n2 -> (forall nm a, n1 <> NRule nm a) ->
  ve (Some (ge_target X z v n1)) (Some (ge_target X z v n2)).
Proof. intros S H; destruct S; cbn [ge_target]; auto with ve; apply ve_some; cbn; auto. Qed.

Lemma range_ve n c1 c2 s1 e1 s2 e2 incl v : E c1 s1 c2 s2 -> E c1 e1 c2 e2 ->
  ve (validate_range X l1 n s1 e1 incl v c1) (validate_range X l2 n s2 e2 incl v c2).
Proof.
  intros Ps Pe. unfold validate_range. apply obind_ve; [apply deref_ve; auto|]. intros a.
  apply obind_ve; [apply deref_ve; auto|]. intros b.
  apply ve_some. unfold range_compare.
  destruct a, b, v; cbn; auto;
    repeat match goal with |- context[if ?x then _ else _] => destruct x end; cbn; auto.
Qed.

Lemma control_ve n c1 c2 x y v :
  (forall v c1 c2 n1 n2, keys_sorted v -> E c1 n1 c2 n2 -> ve (validate X l1 n v n1 c1) (validate X l2 n v n2 c2)) ->
  same_control c1 c2 x y ->
  ve (validate_control X l1 n (fun v nd => validate X l1 n v nd c1) x v c1)
     (validate_control X l2 n (fun v nd => validate X l2 n v nd c2) y v c2).
Proof.
  intros IH [a1 b1 a2 b2 Ha Hb|a1 b1 a2 b2 Ha Hb|a1 b1 a2 b2 Ha Hb|a1 b1 a2 b2 Ha Hb|a1 b1 a2 b2 Ha Hb|re|a1 a2 Ha];
    cbn [validate_control]; unfold validate_control_size, validate_control_lt, validate_control_le,
          validate_control_gt, validate_control_ge; auto with ve.
  - apply obind_ve; [apply chase_size_ve; auto|]. intros. apply chase_ve; [apply f_size|auto].
  - apply obind_ve; [apply chase_ve; [apply f_limit|auto]|]. intros. apply chase_ve; [apply f_lt|auto].
  - apply obind_ve; [apply chase_ve; [apply f_limit|auto]|]. intros. apply chase_ve; [apply f_le|auto].
  - apply obind_ve; [apply chase_ve; [apply f_limit|auto]|]. intros. apply chase_ve; [apply f_gt|auto].
  - apply obind_ve; [apply chase_ve; [apply f_limit|auto]|]. intros. apply chase_ve; [apply f_ge|auto].
  - unfold validate_control_cbor. destruct v; auto with ve. destruct (cbor_decode X b); auto with ve.
    destruct (of_cbor_spec c) as [(v & Ev & Kv)|(m & Ev)]; rewrite Ev; auto with ve.
Qed.

Lemma Forall2_ve (F G : node -> option (res unit)) c1 c2 os1 os2 :
  (forall n1 n2, E c1 n1 c2 n2 -> ve (F n1) (G n2)) ->
  Forall2 (fun a b => E c1 a c2 b) os1 os2 -> Forall2 (fun a b => ve (F a) (G b)) os1 os2.
Proof. intros H F2; induction F2; constructor; auto. Qed.
Lemma Forall2_ves {St} (I : St -> Prop) (F G : node -> St -> option (res unit * St)) c1 c2 os1 os2 :
  (forall n1 n2 s, E c1 n1 c2 n2 -> I s -> ves (F n1 s) (G n2 s)) ->
  Forall2 (fun a b => E c1 a c2 b) os1 os2 ->
  Forall2 (fun a b => forall s, I s -> ves (F a s) (G b s)) os1 os2.
Proof. intros H F2; induction F2; constructor; auto. Qed.

Lemma value_ve n c1 c2 n1 n2 w :
  (forall v c1 c2 n1 n2, keys_sorted v -> E c1 n1 c2 n2 -> ve (validate X l1 n v n1 c1) (validate X l2 n v n2 c2)) ->
  arr_ok w -> E c1 n1 c2 n2 ->
  ves (validate_array_value X (fun v nd => validate X l1 n v nd c1) n1 w)
      (validate_array_value X (fun v nd => validate X l2 n v nd c2) n2 w).
Proof.
  intros IH [Ha _] He. unfold validate_array_value, wa_peek_front.
  destruct (wa_array w) as [|v a] eqn:A; [apply ves_some; cbn; auto|].
  inversion Ha; subst.
  pose proof (IH v c1 c2 n1 n2 H1 He) as V. ve_cases V r1 r2 K.
  destruct r1, r2; cbn in K; try contradiction; auto with ve.
Qed.

Lemma key_ve n c1 c2 k1 k2 w :
  (forall v c1 c2 n1 n2, keys_sorted v -> E c1 n1 c2 n2 -> ve (validate X l1 n v n1 c1) (validate X l2 n v n2 c2)) ->
  map_ok w -> E c1 k1 c2 k2 ->
  ve (validate_map_key X (fun v nd => validate X l1 n v nd c1) k1 w)
     (validate_map_key X (fun v nd => validate X l2 n v nd c2) k2 w).
Proof.
  intros IH (So & He & _) Hk. rewrite Forall_forall in He.
  assert (Hs : forall m1 m2 fin1 fin2, error_kind fin1 = error_kind fin2 -> E c1 m1 c2 m2 ->
    ve (map_search_loop (fun k => validate X l1 n k m1 c1) (wm_map w) fin1)
       (map_search_loop (fun k => validate X l2 n k m2 c2) (wm_map w) fin2)).
  { intros m1 m2 fin1 fin2 Hf Hm. apply search_ve; auto. intros k v Hin. apply IH; auto.
    apply (proj1 (He _ Hin)). }
  assert (Hnl : (forall l, k1 <> NLiteral l) -> forall l, k2 = NLiteral l ->
    ve (map_search X (fun v nd => validate X l1 n v nd c1) k1 w) (Some (map_search_literal X l w))).
  { intros _ l ->. unfold map_search, map_search_literal, wm_peek_at.
    assert (V : ve (map_search_loop (fun k => validate X l1 n k k1 c1) (wm_map w)
                     (mismatch (txt "map{" ++ show_node X k1 ++ txt "}")))
                   (map_search_loop (fun k => Some (validate_literal X l k)) (wm_map w)
                     (mismatch (txt "map{" ++ show_literal X l ++ txt "}")))).
    { apply search_ve; auto. intros k v Hin. pose proof (IH k c1 c2 k1 (NLiteral l) (proj1 (He _ Hin)) Hk) as V.
      destruct n as [|n']; [left; auto|]. exact V. }
    rewrite search_literal in V by auto. destruct (bt_get _ _); auto. }
  destruct (E_cases _ _ _ _ Hk) as [(nm & a & -> & L)|S].
  - destruct k2; cbn [validate_map_key]; try (apply Hs; auto; fail).
    apply Hnl; auto. discriminate.
  - destruct S; cbn [validate_map_key]; try (apply Hs; auto; fail). auto with ve.
Qed.

Lemma keyvalue_ve n c1 c2 k1 v1 k2 v2 cut w :
  (forall v c1 c2 n1 n2, keys_sorted v -> E c1 n1 c2 n2 -> ve (validate X l1 n v n1 c1) (validate X l2 n v n2 c2)) ->
  map_ok w -> E c1 k1 c2 k2 -> E c1 v1 c2 v2 ->
  ves (validate_map_keyvalue X (fun v nd => validate X l1 n v nd c1) k1 v1 cut w)
      (validate_map_keyvalue X (fun v nd => validate X l2 n v nd c2) k2 v2 cut w).
Proof.
  intros IH Hw Hk Hv. unfold validate_map_keyvalue. pose proof (key_ve n c1 c2 k1 k2 w IH Hw Hk) as V.
  ve_cases V r1 r2 K. destruct r1 as [[k v]|e|], r2 as [kv|e'|]; cbn in K; try contradiction; auto with ve.
  subst kv. destruct Hw as (So & He & _). rewrite Forall_forall in He.
  apply map_key_found in V; auto. destruct V as [Hin _].
  pose proof (IH v c1 c2 v1 v2 (proj2 (He _ Hin)) Hv) as V. ve_cases V r1 r2 K.
  destruct r1, r2; cbn in K; try contradiction; auto with ve.
  destruct cut, e, e0; cbn in K; try discriminate; auto with ve; apply ves_some; cbn; auto.
Qed.

Lemma arr_inv n c m w r w' : arr_ok w -> validate_array_member X l1 n m w c = Some (r, w') -> r <> Panic -> arr_ok w'.
Proof. intros Hw H N. eapply arr_step_ok; eauto. Qed.
Lemma map_inv n c m w r w' : map_ok w -> validate_map_member X l1 n m w c = Some (r, w') -> r <> Panic -> map_ok w'.
Proof. intros Hw H N. apply (map_step_ok X l1 n m w r w' c); eauto. Qed.
Lemma mch_inv n c nm a w r w' : map_ok w -> validate_map_choiceify X l1 n nm a w c = Some (r, w') -> r <> Panic -> map_ok w'.
Proof. intros Hw H N. apply (map_step_ok X l1 n (NPrelude PAny) w r w' c); eauto. Qed.
Hint Resolve arr_inv map_inv mch_inv : ve.

Lemma choice_error_kind os1 os2 : error_kind (choice_error os1) = error_kind (choice_error os2).
Proof. reflexivity. Qed.

Lemma choiceify_ve n v c1 c2 ms1 ms2 :
  (forall v c1 c2 n1 n2, keys_sorted v -> E c1 n1 c2 n2 -> ve (validate X l1 n v n1 c1) (validate X l2 n v n2 c2)) ->
  (forall v c1 c2 nm1 a1 nm2 a2, keys_sorted v -> T c1 nm1 a1 c2 nm2 a2 ->
     ve (validate_choiceify X l1 n nm1 a1 v c1) (validate_choiceify X l2 n nm2 a2 v c2)) ->
  keys_sorted v -> Forall2 (item c1 c2) ms1 ms2 ->
  ve (validate_choiceify_members (fun m => validate X l1 n v m c1)
        (fun name args => validate_choiceify X l1 n name args v c1) ms1)
     (validate_choiceify_members (fun m => validate X l2 n v m c2)
        (fun name args => validate_choiceify X l2 n name args v c2) ms2).
Proof.
  intros IHv IHc Kv F. apply try_pure_ve; [reflexivity|].
  induction F as [|i1 i2 ms1 ms2 Hi F IH]; constructor; auto.
  destruct Hi as [| |i1 i2 H1 H2 H3 H4 He]; auto.
  destruct i1; try (exfalso; eapply H1; reflexivity); try (exfalso; eapply H2; reflexivity);
    destruct i2; try (exfalso; eapply H3; reflexivity); try (exfalso; eapply H4; reflexivity); auto.
Qed.

Lemma map_choiceify_ve n w c1 c2 ms1 ms2 :
  (forall w c1 c2 n1 n2, map_ok w -> E c1 n1 c2 n2 ->
     ves (validate_map_member X l1 n n1 w c1) (validate_map_member X l2 n n2 w c2)) ->
  (forall w c1 c2 nm1 a1 nm2 a2, map_ok w -> T c1 nm1 a1 c2 nm2 a2 ->
     ves (validate_map_choiceify X l1 n nm1 a1 w c1) (validate_map_choiceify X l2 n nm2 a2 w c2)) ->
  map_ok w -> Forall2 (item c1 c2) ms1 ms2 ->
  ves (validate_map_choiceify_members (fun m w => validate_map_member X l1 n m w c1)
        (fun name args w => validate_map_choiceify X l1 n name args w c1) ms1 w)
     (validate_map_choiceify_members (fun m w => validate_map_member X l2 n m w c2)
        (fun name args w => validate_map_choiceify X l2 n name args w c2) ms2 w).
Proof.
  intros IHm IHc Kv F. apply (try_ve map_ok); auto.
  - intros. f_equal. apply mismatch_kind; auto.
  - clear Kv w. induction F as [|i1 i2 ms1 ms2 Hi F IH]; constructor; auto. intros w Hw.
    destruct Hi as [| |i1 i2 H1 H2 H3 H4 He]; auto.
    destruct i1; try (exfalso; eapply H1; reflexivity); try (exfalso; eapply H2; reflexivity);
    destruct i2; try (exfalso; eapply H3; reflexivity); try (exfalso; eapply H4; reflexivity); auto.
  - intros [] s r s' _ Hs HE; intros; eauto with ve.
Qed.

(** * Spliced members *)
Section Splice.
Context {D Ee St : Type}.
Variable mk : D -> list (list Ee) -> St.
Variable okst : St -> Prop.
Variable arr : bool.
(** Which errors count as the same. *)
Variable K : verror -> verror -> Prop.
Variable F1 : nat -> C1 -> node -> St -> option (res unit * St).
Variable F2 : C2 -> node -> St -> option (res unit * St).
Variable n : nat.

Definition vet (a b : option (res unit * St)) : Prop :=
  a = None \/ (exists s, a = Some (Panic, s)) \/
  (exists s, a = Some (Ok tt, s) /\ b = Some (Ok tt, s)) \/
  (exists e1 e2 s1 s2, a = Some (Err e1, s1) /\ b = Some (Err e2, s2) /\ K e1 e2).

Hypothesis K_kind : forall e1 e2, error_kind e1 = error_kind e2 -> K e1 e2.
Hypothesis H_E : forall c1 c2 a b s, okst s -> E c1 a c2 b -> ves (F1 n c1 a s) (F2 c2 b s).
Hypothesis H_inv : forall c1 m s r s', okst s -> F1 n c1 m s = Some (r, s') -> r <> Panic -> okst s'.
Hypothesis H_uni : forall k c1 m, uniform mk (F1 k c1 m).
Hypothesis H_mono : forall k c1 m s, k <= n -> le_opt (F1 k c1 m s) (F1 n c1 m s).
Hypothesis H_none : forall c1 m s, F1 0 c1 m s = None.
Hypothesis H_rule : forall k c1 nm a s, F1 (S k) c1 (NRule nm a) s =
  match l1 c1 nm a with
  | Ok (m, c1') => F1 k c1' m s
  | Err e => Some (Err e, s)
  | Panic => Some (Panic, s)
  end.
Hypothesis H_unwrap : forall k c1 nm a s m c1' ms, l1 c1 nm a = Ok (m, c1') ->
  m = (if arr then NArray ms else NMap ms) ->
  F1 (S k) c1 (NUnwrap nm a) s = seq_loop (F1 k c1') ms s.
Hypothesis H_unwrap_panic : forall k c1 nm a s, l1 c1 nm a = Panic -> F1 (S k) c1 (NUnwrap nm a) s = Some (Panic, s).
Hypothesis H_group_none : forall k c1 ms a, seq_loop (F1 k c1) ms (mk a [[]]) = None ->
  F1 (S k) c1 (NGroup ms) (mk a []) = None.
Hypothesis H_group_panic : forall k c1 ms a s, seq_loop (F1 k c1) ms (mk a [[]]) = Some (Panic, s) ->
  exists s', F1 (S k) c1 (NGroup ms) (mk a []) = Some (Panic, s').
Hypothesis H_group_ok : forall k c1 ms a a' d, seq_loop (F1 k c1) ms (mk a [[]]) = Some (Ok tt, mk a' [d]) ->
  F1 (S k) c1 (NGroup ms) (mk a []) = Some (Ok tt, mk a' []).
Hypothesis H_group_err : forall k c1 ms a e a' d, seq_loop (F1 k c1) ms (mk a [[]]) = Some (Err e, mk a' [d]) ->
  exists e' s', F1 (S k) c1 (NGroup ms) (mk a []) = Some (Err e', s') /\ forall e2, K e e2 -> K e' e2.

Lemma seq_loop_app (f : node -> St -> option (res unit * St)) a b s :
  seq_loop f (a ++ b) s =
  match seq_loop f a s with Some (Ok _, s') => seq_loop f b s' | x => x end.
Proof.
  revert s; induction a as [|x a IH]; intros s; cbn; auto. destruct (f x s) as [[[]]|]; auto.
Qed.
Lemma vet_mono a b b' : le_opt b b' -> vet b' a -> vet b a.
Proof. intros [->| ->] H; auto. left; auto. Qed.
Lemma seq_mono k c1 ms s : k <= n -> le_opt (seq_loop (F1 k c1) ms s) (seq_loop (F1 n c1) ms s).
Proof.
  intros Hk; revert s; induction ms as [|m ms IH]; intros s; cbn; [right; auto|].
  destruct (H_mono k c1 m s Hk) as [-> | ->]; [left; auto|]. destruct (F1 n c1 m s) as [[[]]|]; auto; right; auto.
Qed.

(** The remaining data after a sequence that started without snapshots. *)
Lemma seq_bare k c1 ms a r s : seq_loop (F1 k c1) ms (mk a []) = Some (r, s) -> r <> Panic ->
  exists a', s = mk a' [].
Proof.
  intros H Np. destruct (uniform_seq mk (F1 k c1) ms (fun m _ => H_uni k c1 m) a) as [Hn|[Hn|(r' & a' & d & _ & Hr)]].
  - rewrite Hn in H. discriminate.
  - destruct (Hn []) as [s' Hs]. rewrite Hs in H. congruence.
  - rewrite Hr in H. inversion H; subst. eauto.
Qed.

(** A left member standing for the members [ms2] on the right. *)
Lemma vet_glue c1 c2 m ms2 r1 r2 a :
  vet (F1 n c1 m (mk a [])) (seq_loop (F2 c2) ms2 (mk a [])) ->
  (forall a', okst (mk a' []) -> vet (seq_loop (F1 n c1) r1 (mk a' [])) (seq_loop (F2 c2) r2 (mk a' []))) ->
  okst (mk a []) ->
  vet (seq_loop (F1 n c1) (m :: r1) (mk a [])) (seq_loop (F2 c2) (ms2 ++ r2) (mk a [])).
Proof.
  intros V Hr Ho. rewrite seq_loop_app. cbn. destruct V as [->|[(s & ->)|[(s & V1 & V2)|(e1 & e2 & s1 & s2 & -> & -> & HK)]]].
  - left; auto.
  - right; left; eauto.
  - rewrite V1, V2. pose proof (H_inv _ _ _ _ _ Ho V1 ltac:(discriminate)) as Hs.
    assert (V1' : seq_loop (F1 n c1) [m] (mk a []) = Some (Ok tt, s)) by (cbn; rewrite V1; auto).
    apply seq_bare in V1'; [|discriminate]. destruct V1' as (a' & ->). auto.
  - right; right; right. eauto 8.
Qed.

Lemma splices_vet c1 c2 ms1 ms2 : splices arr c1 c2 ms1 ms2 -> forall a, okst (mk a []) ->
  vet (seq_loop (F1 n c1) ms1 (mk a [])) (seq_loop (F2 c2) ms2 (mk a [])).
Proof.
  intros H. induction H as [c1 c2|c1 c2 x y r1 r2 He Hr IHr|c1 c2 ms1 ms2 r1 r2 Hm IHm Hr IHr
    |c1 c2 nm ar m c1' ms2 r1 r2 L Hm IHm Hr IHr|c1 c2 nm ar r1 ms2 L
    |c1 c2 nm ar m c1' ms1 ms2 r1 r2 L Em Hm IHm Hr IHr|c1 c2 nm ar r1 ms2 L]; intros a Ho.
  - right; right; left. cbn. eauto.
  - apply (vet_glue c1 c2 x [y]); auto. cbn.
    destruct (H_E _ _ _ _ _ Ho He) as [->|[(s & ->)|(q1 & q2 & s & -> & -> & V)]].
    + left; auto.
    + right; left; eauto.
    + destruct q1 as [[]|e1|], q2 as [[]|e2|]; cbn in V; try contradiction.
      * right; right; left; eauto.
      * right; right; right. eauto 8.
  - apply vet_glue; auto. destruct n as [|k] eqn:En; [left; apply H_none|]. rewrite <- En in *.
    assert (Hk : k <= n) by lia.
    pose proof (vet_mono _ _ _ (seq_mono k c1 ms1 (mk a []) Hk) (IHm a Ho)) as V.
    rewrite En. destruct (uniform_seq mk (F1 k c1) ms1 (fun m _ => H_uni k c1 m) a) as [Hn|[Hn|(r & a' & d & Np & Hq)]].
    + left. apply H_group_none; auto.
    + destruct (Hn [[]]) as [s Hs]. right; left. eapply H_group_panic; eauto.
    + rewrite (Hq []) in V. cbn in V. pose proof (Hq [[]]) as Hq1. cbn in Hq1.
      destruct V as [V|[(s & V)|[(s & V & V2)|(e1 & e2 & s1 & s2 & V & V2 & HK)]]]; inversion V; subst; try congruence.
      * right; right; left. exists (mk a' []). split; auto. eapply H_group_ok; eauto.
      * right; right; right. destruct (H_group_err _ _ _ _ _ _ _ Hq1) as (e' & s' & Hg & HK').
        exists e', e2, s', s2. auto.
  - apply vet_glue; auto. destruct n as [|k] eqn:En; [left; apply H_none|]. rewrite <- En in *.
    rewrite En, H_rule, L. assert (Hk : k <= n) by lia.
    pose proof (vet_mono _ _ _ (seq_mono k c1' [m] (mk a []) Hk) (IHm a Ho)) as V. cbn in V.
    destruct (F1 k c1' m (mk a [])) as [[[[]|e|] s]|]; auto.
  - cbn. destruct n as [|k] eqn:En; [left; rewrite H_none; auto|]. right; left. rewrite H_rule, L. eauto.
  - apply vet_glue; auto. destruct n as [|k] eqn:En; [left; apply H_none|]. rewrite <- En in *.
    rewrite En, (H_unwrap _ _ _ _ _ _ _ _ L Em). assert (Hk : k <= n) by lia.
    exact (vet_mono _ _ _ (seq_mono k c1' ms1 (mk a []) Hk) (IHm a Ho)).
  - cbn. destruct n as [|k] eqn:En; [left; rewrite H_none; auto|]. right; left. rewrite H_unwrap_panic; eauto.
Qed.
End Splice.

Lemma splices_arr n c1 c2 ms1 ms2 a :
  (forall w c1 c2 n1 n2, arr_ok w -> E c1 n1 c2 n2 ->
     ves (validate_array_member X l1 n n1 w c1) (validate_array_member X l2 n n2 w c2)) ->
  arr_ok (wa_new a) -> splices true c1 c2 ms1 ms2 ->
  vet (fun e1 e2 => error_kind e1 = error_kind e2)
    (seq_loop (fun m w => validate_array_member X l1 n m w c1) ms1 (wa_new a))
    (seq_loop (fun m w => validate_array_member X l2 n m w c2) ms2 (wa_new a)).
Proof.
  intros IHa Ho H.
  apply (splices_vet WA arr_ok true (fun e1 e2 => error_kind e1 = error_kind e2)
    (fun k c m w => validate_array_member X l1 k m w c) (fun c m w => validate_array_member X l2 n m w c) n); auto.
  - intros; eapply arr_inv; eauto.
  - intros. apply frame_array.
  - intros. apply (mono X l1 k n); auto.
  - intros k d nm b s m c1' ms L Em. rewrite validate_array_member_S, L, Em. reflexivity.
  - intros k d nm b s L. rewrite validate_array_member_S, L. reflexivity.
  - intros k d ms b Hs. rewrite validate_array_member_S. unfold validate_array_group, wa_snapshot. cbn. rewrite Hs. auto.
  - intros k d ms b s Hs. rewrite validate_array_member_S. unfold validate_array_group, wa_snapshot. cbn. rewrite Hs. eauto.
  - intros k d ms b b' x Hs. rewrite validate_array_member_S. unfold validate_array_group, wa_snapshot. cbn. rewrite Hs. auto.
  - intros k d ms b e b' x Hs. rewrite validate_array_member_S. unfold validate_array_group, wa_snapshot. cbn. rewrite Hs. cbn. eauto.
Qed.
Lemma splices_map n c1 c2 ms1 ms2 a :
  (forall w c1 c2 n1 n2, map_ok w -> E c1 n1 c2 n2 ->
     ves (validate_map_member X l1 n n1 w c1) (validate_map_member X l2 n n2 w c2)) ->
  map_ok (wm_new a) -> splices false c1 c2 ms1 ms2 ->
  vet (fun e1 e2 => error_kind (erase_mapcut e1) = error_kind (erase_mapcut e2))
    (seq_loop (fun m w => validate_map_member X l1 n m w c1) ms1 (wm_new a))
    (seq_loop (fun m w => validate_map_member X l2 n m w c2) ms2 (wm_new a)).
Proof.
  intros IHm Ho H.
  apply (splices_vet WM map_ok false (fun e1 e2 => error_kind (erase_mapcut e1) = error_kind (erase_mapcut e2))
    (fun k c m w => validate_map_member X l1 k m w c) (fun c m w => validate_map_member X l2 n m w c) n); auto.
  - intros; apply erase_kind; auto.
  - intros; eapply map_inv; eauto.
  - intros. apply frame_map.
  - intros. apply (mono X l1 k n); auto.
  - intros k d nm b s m c1' ms L Em. rewrite validate_map_member_S, L, Em. reflexivity.
  - intros k d nm b s L. rewrite validate_map_member_S, L. reflexivity.
  - intros k d ms b Hs. rewrite validate_map_member_S. unfold validate_map_group, wm_snapshot. cbn. rewrite Hs. auto.
  - intros k d ms b s Hs. rewrite validate_map_member_S. unfold validate_map_group, wm_snapshot. cbn. rewrite Hs. eauto.
  - intros k d ms b b' x Hs. rewrite validate_map_member_S. unfold validate_map_group, wm_snapshot. cbn. rewrite Hs. auto.
  - intros k d ms b e b' x Hs. rewrite validate_map_member_S. unfold validate_map_group, wm_snapshot. cbn. rewrite Hs. cbn.
    do 2 eexists. split; [reflexivity|]. intros e2. destruct e; cbn; auto.
Qed.

Theorem stutter n :
  (forall v c1 c2 n1 n2, keys_sorted v -> E c1 n1 c2 n2 -> ve (validate X l1 n v n1 c1) (validate X l2 n v n2 c2)) /\
  (forall w c1 c2 n1 n2, arr_ok w -> E c1 n1 c2 n2 ->
     ves (validate_array_member X l1 n n1 w c1) (validate_array_member X l2 n n2 w c2)) /\
  (forall w c1 c2 n1 n2, map_ok w -> E c1 n1 c2 n2 ->
     ves (validate_map_member X l1 n n1 w c1) (validate_map_member X l2 n n2 w c2)) /\
  (forall v c1 c2 nm1 a1 nm2 a2, keys_sorted v -> T c1 nm1 a1 c2 nm2 a2 ->
     ve (validate_choiceify X l1 n nm1 a1 v c1) (validate_choiceify X l2 n nm2 a2 v c2)) /\
  (forall w c1 c2 nm1 a1 nm2 a2, map_ok w -> T c1 nm1 a1 c2 nm2 a2 ->
     ves (validate_map_choiceify X l1 n nm1 a1 w c1) (validate_map_choiceify X l2 n nm2 a2 w c2)).
Proof.
  induction n as [|n IH].
  { repeat split; intros; cbn; auto with ve. }
  destruct IH as (IHv & IHa & IHm & IHc & IHmc).
  destruct (mono X l2 n (S n) ltac:(lia)) as (Mv & Ma & Mm & _).
  split; [|split; [|split; [|split]]].
  - intros v c1 c2 n1 n2 Kv He. destruct (E_cases _ _ _ _ He) as [(nm & a & -> & L)|S].
    { eapply ve_mono; [|apply Mv]. rewrite validate_S.
      destruct (l1 c1 nm a) as [[m1 c1']|e|]; [auto|contradiction|auto with ve]. }
    rewrite !validate_S.
    destruct S as [l|p|nm1 a1 nm2 a2 L|os1 os2 F|os1 os2 F|os1 os2 F|os1 os2 F|k1 v1 k2 v2 cut Hk Hv|l l' n1 n2 Hl H
      |nm1 a1 nm2 a2 L|s1 e1 s2 e2 incl Hs He'|x y Hc|nm1 a1 nm2 a2 L|ms1 ms2 F F']; auto with ve.
    + unfold look in L. destruct (l1 c1 nm1 a1) as [[m1 c1']|e|]; auto with ve.
      * destruct L as (m2 & c2' & -> & L). auto.
      * destruct L as (e' & -> & L). auto with ve.
    + apply try_pure_ve; [reflexivity|]. eapply Forall2_ve; [|exact F]. auto.
    + unfold validate_map. destruct v; auto with ve.
      assert (Hw : map_ok (wm_new m)).
      { apply keys_sorted_map in Kv. destruct Kv. split; [auto|split]; cbn; auto. }
      destruct (splices_map n c1 c2 os1 os2 m IHm Hw F)
        as [->|[(s & ->)|[(s & -> & ->)|(e1 & e2 & s1 & s2 & -> & -> & K)]]]; auto with ve.
    + unfold validate_array. destruct v; auto with ve.
      assert (Hw : arr_ok (wa_new l)).
      { apply keys_sorted_array in Kv. split; cbn; auto. }
      destruct (splices_arr n c1 c2 os1 os2 l IHa Hw F)
        as [->|[(s & ->)|[(s & -> & ->)|(e1 & e2 & s1 & s2 & -> & -> & K)]]]; auto with ve.
    + unfold validate_standalone_group. destruct F as [|x y l1' l2' Hx F]; auto with ve.
      destruct F; auto with ve.
    + apply range_ve; auto.
    + apply control_ve; auto.
    + apply choiceify_ve; auto.
  - intros w c1 c2 n1 n2 Kv He. destruct (E_cases _ _ _ _ He) as [(nm & a & -> & L)|S].
    { eapply ves_mono; [|apply Ma]. rewrite validate_array_member_S.
      destruct (l1 c1 nm a) as [[m1 c1']|e|]; [auto|contradiction|eauto with ve]. }
    rewrite !validate_array_member_S.
    destruct S as [l|p|nm1 a1 nm2 a2 L|os1 os2 F|os1 os2 F|os1 os2 F|os1 os2 F|k1 v1 k2 v2 cut Hk Hv|l l' n1 n2 Hl H
      |nm1 a1 nm2 a2 L|s1 e1 s2 e2 incl Hs He'|x y Hc|nm1 a1 nm2 a2 L|ms1 ms2 F F'];
      try (apply value_ve; auto; fail).
    + unfold look in L. destruct (l1 c1 nm1 a1) as [[m1 c1']|e|]; eauto with ve.
      * destruct L as (m2 & c2' & -> & L). auto.
      * destruct L as (e' & -> & L). auto with ve.
    + apply (try_ve arr_ok); eauto using fatal_kind with ve. eapply Forall2_ves; [|exact F]. auto.
    + unfold validate_array_group.
      assert (Hw : arr_ok (wa_snapshot w)).
      { destruct Kv. split; cbn; auto. }
      assert (V : ves (seq_loop (fun m w => validate_array_member X l1 n m w c1) os1 (wa_snapshot w))
                      (seq_loop (fun m w => validate_array_member X l2 n m w c2) os2 (wa_snapshot w))).
      { apply (seq_ve arr_ok); eauto with ve. eapply Forall2_ves; [|exact F]. auto. }
      ves_cases V r1 r2 w' K. destruct r1, r2; cbn in K; try contradiction; auto with ve.
      destruct (wa_rewind w'); auto with ve.
    + unfold validate_array_occur. rewrite (limits_bounds l), (limits_bounds l'), <- Hl. destruct (bounds l) as [lo up].
      assert (V : ves (occur_loop n (fun w => validate_array_member X l1 n n1 w c1) up 0 w)
                      (occur_loop n (fun w => validate_array_member X l2 n n2 w c2) up 0 w)).
      { apply (occur_ve arr_ok); eauto with ve. }
      ves_cases V r1 r2 w' K. destruct r1, r2; cbn in K; try contradiction; subst; auto with ve.
      destruct (N.ltb a0 lo); apply ves_some; cbn; auto.
    + apply T_look in L. unfold look in L. destruct (l1 c1 nm1 a1) as [[m1 c1']|e|]; eauto with ve.
      * destruct L as (m2 & c2' & -> & L). unfold validate_array_unwrap.
        destruct L as [ms1 ms2 F|ms1 ms2 F|ms1 ms2 F|nm3 a3 nm4 a4 F|m1 m2 H1 H2 H3 H4 H5 H6 H7 H8]; auto with ve.
        -- apply (seq_ve arr_ok); eauto with ve. eapply Forall2_ves; [|exact F]. auto.
        -- destruct m1; try (exfalso; eapply H1; reflexivity);
             destruct m2; try (exfalso; eapply H5; reflexivity); auto with ve.
      * destruct L as (e' & -> & L). auto with ve.
  - intros w c1 c2 n1 n2 Kv He. destruct (E_cases _ _ _ _ He) as [(nm & a & -> & L)|S].
    { eapply ves_mono; [|apply Mm]. rewrite validate_map_member_S.
      destruct (l1 c1 nm a) as [[m1 c1']|e|]; [auto|contradiction|eauto with ve]. }
    rewrite !validate_map_member_S.
    destruct S as [l|p|nm1 a1 nm2 a2 L|os1 os2 F|os1 os2 F|os1 os2 F|os1 os2 F|k1 v1 k2 v2 cut Hk Hv|l l' n1 n2 Hl H
      |nm1 a1 nm2 a2 L|s1 e1 s2 e2 incl Hs He'|x y Hc|nm1 a1 nm2 a2 L|ms1 ms2 F F']; auto with ve.
    + unfold look in L. destruct (l1 c1 nm1 a1) as [[m1 c1']|e|]; eauto with ve.
      * destruct L as (m2 & c2' & -> & L). auto.
      * destruct L as (e' & -> & L). auto with ve.
    + apply (try_ve map_ok); eauto with ve. * intros; f_equal; apply mismatch_kind; auto.
      * eapply Forall2_ves; [|exact F]. auto.
    + unfold validate_map_group.
      assert (Hw : map_ok (wm_snapshot w)).
      { destruct Kv as (? & ? & ?). split; [auto|split]; cbn; auto. }
      assert (V : ves (seq_loop (fun m w => validate_map_member X l1 n m w c1) os1 (wm_snapshot w))
                      (seq_loop (fun m w => validate_map_member X l2 n m w c2) os2 (wm_snapshot w))).
      { apply (seq_ve map_ok); eauto with ve. eapply Forall2_ves; [|exact F]. auto. }
      ves_cases V r1 r2 w' K. destruct r1, r2; cbn in K; try contradiction; auto with ve.
      destruct (wm_rewind w'); auto with ve. apply ves_some. cbn. apply erase_kind; auto.
    + apply keyvalue_ve; auto.
    + unfold validate_map_occur. rewrite (limits_bounds l), (limits_bounds l'), <- Hl. destruct (bounds l) as [lo up].
      assert (V : ves (occur_loop n (fun w => validate_map_member X l1 n n1 w c1) up 0 w)
                      (occur_loop n (fun w => validate_map_member X l2 n n2 w c2) up 0 w)).
      { apply (occur_ve map_ok); eauto with ve. }
      ves_cases V r1 r2 w' K. destruct r1, r2; cbn in K; try contradiction; subst; auto with ve.
      destruct (N.ltb a0 lo); apply ves_some; cbn; auto.
    + apply T_look in L. unfold look in L. destruct (l1 c1 nm1 a1) as [[m1 c1']|e|]; eauto with ve.
      * destruct L as (m2 & c2' & -> & L). unfold validate_map_unwrap.
        destruct L as [ms1 ms2 F|ms1 ms2 F|ms1 ms2 F|nm3 a3 nm4 a4 F|m1 m2 H1 H2 H3 H4 H5 H6 H7 H8]; auto with ve.
        -- apply (seq_ve map_ok); eauto with ve. eapply Forall2_ves; [|exact F]. auto.
        -- destruct m1; try (exfalso; eapply H2; reflexivity);
             destruct m2; try (exfalso; eapply H6; reflexivity); auto with ve.
      * destruct L as (e' & -> & L). auto with ve.
    + apply (try_ve map_ok); eauto with ve. * intros; f_equal; apply mismatch_kind; auto.
      * eapply Forall2_ves; [|exact F']. auto.
  - intros v c1 c2 nm1 a1 nm2 a2 Kv L. rewrite !validate_choiceify_S.
    apply T_look in L. unfold look in L. destruct (l1 c1 nm1 a1) as [[m1 c1']|e|]; auto with ve.
    + destruct L as (m2 & c2' & -> & L).
      destruct L as [ms1 ms2 F|ms1 ms2 F|ms1 ms2 F|nm3 a3 nm4 a4 F|m1 m2 H1 H2 H3 H4 H5 H6 H7 H8]; auto with ve.
      * apply choiceify_ve; auto.
      * destruct m1; try (exfalso; eapply H3; reflexivity); try (exfalso; eapply H4; reflexivity);
          destruct m2; try (exfalso; eapply H7; reflexivity); try (exfalso; eapply H8; reflexivity); auto with ve.
    + destruct L as (e' & -> & L). auto with ve.
  - intros w c1 c2 nm1 a1 nm2 a2 Kv L. rewrite !validate_map_choiceify_S.
    apply T_look in L. unfold look in L. destruct (l1 c1 nm1 a1) as [[m1 c1']|e|]; eauto with ve.
    + destruct L as (m2 & c2' & -> & L).
      destruct L as [ms1 ms2 F|ms1 ms2 F|ms1 ms2 F|nm3 a3 nm4 a4 F|m1 m2 H1 H2 H3 H4 H5 H6 H7 H8]; auto with ve.
      * apply map_choiceify_ve; auto.
      * destruct m1; try (exfalso; eapply H3; reflexivity); try (exfalso; eapply H4; reflexivity);
          destruct m2; try (exfalso; eapply H7; reflexivity); try (exfalso; eapply H8; reflexivity); auto with ve.
    + destruct L as (e' & -> & L). auto with ve.
Qed.
End Stutter.
