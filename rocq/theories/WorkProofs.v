(** Every answered question has exactly one cost, and what is left of the data is part of it. *)
From Coq Require Import List Bool ZArith NArith String Lia Arith.
From Verif Require Import Base Util Data Value Convert Ivt Scalar Validate Unfold Mono Total Fun ValueOrder
  ArrayInv MapInv ConvertProofs ConvertExact NoPanic SpecBase SpecCtx SpecReach SpecConvert CtxProofs SpecVerdict
  SpecPos SpecJudge SpecPeg SpecActs JudgeProofs MapProofs PegProofs PegExact ActProofs SpecNest SpecConsume Consume SpecWork.
Import ListNotations.

Scheme cost_ind' := Induction for cost Sort Prop with costs_ind' := Induction for costs Sort Prop.

(** * Every question that has an answer has a cost, and only one *)
Section Exists.
Variable X : ext.
Variable lk : lookup_context.
Lemma cost0 q : asks X lk q [] -> exists n, cost X lk q n.
Proof. intros A. eexists. eapply cost_of; [exact A|constructor]. Qed.
Lemma cost1 q q1 : asks X lk q [q1] -> (exists n, cost X lk q1 n) -> exists n, cost X lk q n.
Proof. intros A (n & C). eexists. eapply cost_of; [exact A|]. econstructor; [exact C|constructor]. Qed.
Lemma cost2 q q1 q2 : asks X lk q [q1; q2] -> (exists n, cost X lk q1 n) -> (exists n, cost X lk q2 n) -> exists n, cost X lk q n.
Proof. intros A (n & C) (m & D). eexists. eapply cost_of; [exact A|]. econstructor; [exact C|]. econstructor; [exact D|constructor]. Qed.
Theorem cost_exists q r : acts X lk q r -> exists n, cost X lk q n.
Proof.
  induction 1;
    try (eapply cost2; [solve [econstructor; eauto]|assumption|assumption]);
    try (eapply cost1; [solve [econstructor; eauto]|assumption]);
    try (apply cost0; solve [econstructor; eauto]).
  - apply cost0, w_leaf. eapply judges_leaf; eauto.
  - apply cost0, w_cbor_no. intros b x w ->. destruct (H b eq_refl).
  - apply cost0, w_cbor_no. intros b' x w [= <-] D. congruence.
  - apply cost0, w_cbor_no. intros b' x' w [= <-] D M. rewrite H in D. injection D as <-. eapply tag_means; eauto.
  - apply cost0, w_o_wrong; intros; congruence.
  - apply cost0, w_o_wrong; intros; intros E; rewrite H in E; injection E as -> ->; [eapply H0|eapply H1]; reflexivity.
  - apply cost0, w_a_unwrap_no; intros; intros E; rewrite H in E; injection E as -> ->; eapply H0; reflexivity.
  - apply cost0, w_a_unwrap_no; intros; congruence.
  - eapply cost1; [eapply w_repa_stop; [eassumption|discriminate]|assumption].
  - eapply cost1; [eapply w_repa_stop; [eassumption|discriminate]|assumption].
  - apply cost0, w_m_unwrap_no; intros; intros E; rewrite H in E; injection E as -> ->; eapply H0; reflexivity.
  - apply cost0, w_m_unwrap_no; intros; congruence.
  - apply cost0, w_mo_wrong; intros; congruence.
  - apply cost0, w_mo_wrong; intros; intros E; rewrite H in E; injection E as -> ->; [eapply H0|eapply H1]; reflexivity.
  - eapply cost1; [eapply w_repm_stop; [eassumption|discriminate]|assumption].
  - eapply cost1; [eapply w_repm_stop; [eassumption|]|assumption]. intros took rest E. destruct (H0 _ _ _ E). discriminate.
Qed.

Lemma asks_det q l1 : asks X lk q l1 -> forall l2, asks X lk q l2 -> l1 = l2.
Proof.
  intros A. destruct A; intros l2 A2; inversion A2; subst; auto; try discriminate;
    repeat match goal with
    | H : acts X lk ?q ?r, H' : acts X lk ?q ?r' |- _ => pose proof (acts_det _ _ _ _ H _ H'); clear H'; subst
    | H : ?a = ?b, H' : ?a = ?c |- _ => rewrite H in H'; injection H' as ? ?; subst
    end; auto; try congruence.
  all: try (exfalso; match goal with H : forall _, _ |- _ => eapply H; reflexivity end; fail).
  all: try (exfalso; match goal with H : List.length [_] <> 1 |- _ => apply H; reflexivity end; fail).
  - match goal with D : cbor_decode X b = inl ?x, D' : cbor_decode X b = inl ?y |- _ => rewrite D in D'; injection D' as <- end.
    match goal with M : cbor_means _ v, M' : cbor_means _ v0 |- _ => rewrite (cbor_means_unique _ _ _ M M') end. auto.
  - exfalso. match goal with H : forall b x w, _ = _ -> _ |- _ => eapply H; eauto end.
  - exfalso. match goal with H : forall b x w, _ = _ -> _ |- _ => eapply H; eauto end.
Qed.
Theorem cost_unique q n : cost X lk q n -> forall m, cost X lk q m -> n = m.
Proof.
  intros C. pattern q, n, C. apply (cost_ind' X lk _ (fun qs n _ => forall m, costs X lk qs m -> n = m)); clear.
  - intros q qs n A C IH m D. inversion D as [? qs' m' A' C']; subst. rewrite (asks_det _ _ A _ A') in *. f_equal. auto.
  - intros m D. inversion D; auto.
  - intros q qs n m C IH D IH' k E. inversion E; subst. f_equal; auto.
Qed.
End Exists.

(** * What is left is part of what was there *)
Definition part {A} (l l' : list A) : Prop := incl l' l /\ List.length l' <= List.length l.
Lemma part_refl {A} (l : list A) : part l l.
Proof. split; [apply incl_refl|auto]. Qed.
Lemma part_trans {A} (l1 l2 l3 : list A) : part l1 l2 -> part l2 l3 -> part l1 l3.
Proof. intros [I1 L1] [I2 L2]. split; [eapply incl_tran; eauto|lia]. Qed.
Lemma part_after {A} (l took rest took' rest' : list A) : part l (took ++ rest) -> part rest (took' ++ rest') ->
  part l ((took ++ took') ++ rest').
Proof.
  intros [I1 L1] [I2 L2]. rewrite app_length in L1. split.
  - rewrite <- app_assoc. intros x Hx. apply in_app_or in Hx as [Hx|Hx]; apply I1, in_or_app; auto.
  - rewrite !app_length in *. lia.
Qed.
Lemma part_rest {A} (l took rest : list A) : part l (took ++ rest) -> part l rest.
Proof. intros [I L]. rewrite app_length in L. split; [intros x Hx; apply I, in_or_app; auto|lia]. Qed.
Lemma part_filter {A} f (l : list A) : part l (filter f l).
Proof.
  split; [intros x Hx; apply filter_In in Hx; tauto|]. induction l as [|x l IH]; cbn; [lia|]. destruct (f x); cbn; lia.
Qed.

Definition array_of (q : question) : option (list value) :=
  match q with AskArr _ _ a | AskSeqA _ _ a | AskAltA _ _ _ a | AskRepA _ _ _ a => Some a | _ => None end.
Definition entries_of (q : question) : option entries :=
  match q with AskMap _ _ es | AskSeqM _ _ es | AskAltM _ _ es | AskRepM _ _ _ es | AskOneOfM _ _ _ es => Some es | _ => None end.
Definition proper (q : question) : Prop :=
  match q with
  | AskAny _ qs => forall q, In q qs -> (exists c t v, q = AskType c t v) \/ (exists c n a v, q = AskOneOf c n a v)
  | AskAltM _ qs _ => forall f, In f qs -> (exists c m, f = AskMap c m) \/ (exists c n a, f = AskOneOfM c n a)
  | _ => True
  end.
Definition leaves_a (a : list value) (r : reply) : Prop :=
  match r with DidA _ p s => part a (p ++ s) | Wrong _ => True | _ => False end.
Definition leaves_m (es : entries) (r : reply) : Prop :=
  match r with DidM _ p s => part es (p ++ s) | Wrong _ => True | _ => False end.
Definition leaves (q : question) (r : reply) : Prop :=
  match q with
  | AskArr _ _ a | AskSeqA _ _ a | AskAltA _ _ _ a => leaves_a a r
  | AskRepA _ _ _ a => match r with RoundsA _ p s => part a (p ++ s) | Wrong _ => True | _ => False end
  | AskMap _ _ es | AskSeqM _ _ es | AskAltM _ _ es | AskOneOfM _ _ _ es => leaves_m es r
  | AskRepM _ _ _ es => match r with RoundsM _ p s => part es (p ++ s) | _ => leaves_m es r end
  | AskType _ _ _ | AskOneOf _ _ _ _ | AskAny _ _ => match r with Accept | Reject _ | Wrong _ => True | _ => False end
  | AskKey _ _ es => match r with Found k v => In (k, v) es | Absent => True | _ => False end
  end.

Section Leaves.
Variable X : ext.
Variable lk : lookup_context.
Lemma proper_map c ms none es : proper (AskAltM none (map (AskMap c) ms) es).
Proof. intros f Hf. apply in_map_iff in Hf as (m & <- & _). left. eauto. Qed.
Lemma proper_items c ms none es : proper (AskAltM none (map (member_question c) ms) es).
Proof.
  intros f Hf. apply in_map_iff in Hf as (m & <- & _).
  destruct m; [left|left|right|left|left|left|left|left|left|left|left|left|left|left]; unfold member_question; eauto.
Qed.
Lemma found_entry c key es k v : acts X lk (AskKey c key es) (Found k v) -> In (k, v) es.
Proof.
  induction es as [|[k' v'] es IH]; intros A; inversion A; subst.
  - left; auto.
  - right; auto.
Qed.
Lemma filter_less (es : entries) k v : In (k, v) es -> List.length (filter (fun e => negb (veqb (fst e) k)) es) < List.length es.
Proof.
  induction es as [|[k' v'] es IH]; [contradiction|]. pose proof (part_filter (fun e : value * value => negb (veqb (fst e) k)) es) as [_ L].
  intros [[= -> ->]|H]; cbn; [rewrite (proj2 (veqb_eq k k) eq_refl); cbn; lia|].
  destruct (negb (veqb k' k)); cbn; [apply IH in H; lia|lia].
Qed.
Lemma leaves_after_a a took rest r : part a (took ++ rest) -> leaves_a rest r -> leaves_a a (afterA took r).
Proof. intros P. destruct r; cbn; auto; apply part_after; auto. Qed.
Lemma leaves_after_m es took rest r : part es (took ++ rest) -> leaves_m rest r -> leaves_m es (afterM took r).
Proof. intros P. destruct r; cbn; auto; apply part_after; auto. Qed.
Lemma proper_types c v ms none : proper (AskAny none (map (fun t => AskType c t v) ms)).
Proof. intros f Hf. apply in_map_iff in Hf as (m & <- & _). left. eauto. Qed.
Lemma proper_one_of c v ms none : proper (AskAny none (map (item_question c v) ms)).
Proof.
  intros f Hf. apply in_map_iff in Hf as (m & <- & _).
  destruct m; [left|left|right|left|left|left|left|left|left|left|left|left|left|left]; unfold item_question; eauto.
Qed.
Lemma acts_leaves q r : acts X lk q r -> proper q -> leaves q r.
Proof.
  induction 1; intros P; unfold leaves in *; cbn [proper] in P;
    repeat match goal with IH : proper (AskAny _ (map (fun t => AskType _ t _) _)) -> _ |- _ => specialize (IH (proper_types _ _ _ _)) end;
    repeat match goal with IH : proper (AskAny _ (map (item_question _ _) _)) -> _ |- _ => specialize (IH (proper_one_of _ _ _ _)) end;
    repeat match goal with IH : proper (AskAltM _ (map (AskMap _) _) _) -> _ |- _ => specialize (IH (proper_map _ _ _ _)) end;
    repeat match goal with IH : proper (AskAltM _ (map (member_question _) _) _) -> _ |- _ => specialize (IH (proper_items _ _ _ _)) end;
    cbn [proper] in *; repeat match goal with IH : True -> _ |- _ => specialize (IH Logic.I) end;
    auto; try exact Logic.I.
  - apply IHacts2. intros q' Hq. apply P. right; auto.
  - destruct (P q (or_introl eq_refl)) as [(c & t & v & ->)|(c & nm & args & v & ->)]; exact (IHacts Logic.I).
  - destruct j; cbn; auto.
  - destruct r as [| | |[] ? []| | | | |]; cbn in *; auto; contradiction.
  - destruct r as [| | | |[] ? []| | | |]; cbn in *; auto; contradiction.
  - destruct r; cbn in *; auto using part_refl; try contradiction.
  - apply part_refl.
  - apply part_refl.
  - destruct r as [| | |[] ? ?| | | | |]; cbn in *; auto; try contradiction; eapply part_rest; eauto.
  - destruct r; cbn in *; auto; try contradiction.
  - apply part_refl.
  - destruct r; cbn in *; auto; try contradiction; eapply part_after; eauto.
  - apply part_refl.
  - destruct r; cbn in *; auto; try contradiction; eapply part_after; eauto.
  - destruct r; cbn in *; auto; try contradiction; eapply part_after; eauto.
  - apply part_refl.
  - destruct r; cbn in *; auto using part_refl; try contradiction. split; [|cbn; apply filter_less in IHacts1; lia].
    intros e [<-|He]; [auto|apply filter_In in He; tauto].
  - left; auto.
  - destruct r; auto. right; auto.
  - apply part_refl.
  - destruct r as [| | | |[] ? ?| | | |]; cbn in *; auto; [eapply part_rest; eauto| |]; apply part_filter.
  - destruct r; cbn in *; auto; try contradiction.
  - apply part_refl.
  - destruct r; cbn in *; auto; try contradiction; eapply part_after; eauto.
  - apply part_refl.
  - assert (P1 : part es (took ++ rest)).
    { destruct (P q (or_introl eq_refl)) as [(c & m & ->)|(c & nm & args & ->)]; exact (IHacts1 Logic.I). }
    specialize (IHacts2 (fun f Hf => P f (or_intror Hf))). destruct r; cbn in *; auto; try contradiction; eapply part_after; eauto.
  - destruct (P q (or_introl eq_refl)) as [(c & m & ->)|(c & nm & args & ->)]; exact (IHacts Logic.I).
  - destruct r; cbn in *; auto; eapply part_after; eauto.
  - destruct r; cbn in *; auto; try contradiction.
Qed.
End Leaves.
