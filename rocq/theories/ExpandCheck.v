(** A procedure that checks the class of C14 for a rule set, given the names and
    parameters that [~], [&] and [.size] may reach. *)
From Coq Require Import List Bool ZArith NArith String Lia Arith.
From Verif Require Import Base Util Data Value Ivt Validate ValueOrder SpecCtx SpecExpand Expand.
Import ListNotations.

Section Check.
Variable rs : rules.
Variable start : node.
(** Names that [~] and [&] may inspect; names that may stand for a size; parameters
    that may stand for a size, with the parameter list they belong to. *)
Variables targets sized : list text.
Variable sized_params : list (list text * text).

Definition one_of (l : list text) (x : text) : bool := existsb (text_eqb x) l.
Fixpoint texts_eqb (a b : list text) : bool :=
  match a, b with
  | [], [] => true
  | x :: a', y :: b' => text_eqb x y && texts_eqb a' b'
  | _, _ => false
  end.
Definition is_param_ref (ps : list text) (n : node) : bool :=
  match n with NRule name _ => one_of ps name | _ => false end.
Definition targets_of (m : node) : list text :=
  match m with
  | NUnwrap name _ | NChoiceify name _ => [name]
  | NChoiceifyInline l => flat_map (fun i => match i with NRule name _ => [name] | _ => [] end) l
  | _ => []
  end.
Definition types_b (ps : list text) (m : node) : bool :=
  match m with
  | NUnwrap name _ | NChoiceify name _ => negb (one_of ps name)
  | NChoiceifyInline l => forallb (fun i => negb (is_param_ref ps i)) l
  | _ => true
  end.
Definition size_ok (ps : list text) (n : node) : bool :=
  match n with
  | NRule name _ =>
      if one_of ps name then existsb (fun q => texts_eqb (fst q) ps && text_eqb (snd q) name) sized_params
      else one_of sized name
  | NRange a b _ => negb (is_param_ref ps a) && negb (is_param_ref ps b)
  | _ => true
  end.
Definition application (m : node) : option (text * list node) :=
  match m with
  | NRule r args | NUnwrap r args | NChoiceify r args => Some (r, args)
  | _ => None
  end.
Definition written_ok (ps : list text) (m : node) : bool :=
  forallb (one_of targets) (targets_of m) &&
  match m with NControl (CtlSize _ b) => size_ok ps b | _ => true end &&
  match application m with
  | Some (r, args) =>
      match rules_get rs r with
      | Some def =>
          forallb (fun q => negb (texts_eqb (fst q) (rd_parms def)) ||
                            match argument (rd_parms def) args (snd q) with
                            | Some x => size_ok ps x
                            | None => true
                            end) sized_params
      | None => true
      end
  | None => true
  end.
Definition target_ok (def : rule_def) : bool :=
  match rd_node def with
  | NRule name _ => negb (one_of (rd_parms def) name) && one_of targets name
  | NGroup l => forallb (fun i => match i with
                                  | NRule name _ => negb (one_of (rd_parms def) name) && one_of targets name
                                  | _ => true
                                  end) l
  | _ => true
  end.
Definition expandable_b : bool :=
  forallb (written_ok []) (parts start) &&
  forallb (fun r => let def := snd r in
     forallb (fun m => written_ok (rd_parms def) m && types_b (rd_parms def) m) (parts (rd_node def)) &&
     (negb (one_of targets (fst r)) || target_ok def) &&
     (negb (one_of sized (fst r)) || size_ok (rd_parms def) (rd_node def))) rs.

Hypothesis H : expandable_b = true.
Let lk := basic_context rs.

Lemma one_of_in l x : one_of l x = true <-> In x l.
Proof.
  unfold one_of. rewrite existsb_exists. split.
  - intros (y & Hy & Q). apply text_eqb_eq in Q. subst; auto.
  - intros Hx. exists x. split; auto. apply text_eqb_eq; auto.
Qed.
Lemma one_of_not l x : negb (one_of l x) = true <-> ~ In x l.
Proof. rewrite negb_true_iff, <- one_of_in. destruct (one_of l x); split; congruence. Qed.
Lemma texts_eqb_refl a : texts_eqb a a = true.
Proof. induction a as [|x a IH]; cbn; auto. rewrite IH, (proj2 (text_eqb_eq x x) eq_refl). auto. Qed.
Lemma texts_eqb_eq a : forall b, texts_eqb a b = true -> a = b.
Proof.
  induction a as [|x a IH]; intros [|y b]; cbn; try discriminate; auto.
  intros Q. apply andb_true_iff in Q. destruct Q as [Q1 Q2]. apply text_eqb_eq in Q1. f_equal; auto.
Qed.
Lemma is_param_ref_not ps n : negb (is_param_ref ps n) = true -> ~ param_ref ps n.
Proof. intros Q (name & args & -> & Hin). cbn in Q. apply one_of_not in Q. contradiction. Qed.

Lemma lk_get name def : lk name = inl def -> rules_get rs name = Some def /\ In (name, def) rs.
Proof.
  unfold lk, basic_context. destruct (rules_get rs name) as [d|] eqn:G; [|discriminate]. intros [= ->]. split; auto.
  clear - G. induction rs as [|[k d] l IH]; cbn in *; [discriminate|]. destruct (text_eqb k name) eqn:T; auto.
  apply text_eqb_eq in T. inversion G; subst; auto.
Qed.
Lemma rule_ok name def : lk name = inl def ->
  (forall m, part (rd_node def) m -> written_ok (rd_parms def) m = true /\ types_b (rd_parms def) m = true) /\
  (In name targets -> target_ok def = true) /\
  (In name sized -> size_ok (rd_parms def) (rd_node def) = true).
Proof.
  intros L. apply lk_get in L. destruct L as [_ Hin]. unfold expandable_b in H.
  apply andb_true_iff in H. destruct H as [_ F]. rewrite forallb_forall in F. specialize (F _ Hin). cbn in F.
  apply andb_true_iff in F. destruct F as [F F3]. apply andb_true_iff in F. destruct F as [F1 F2].
  repeat split.
  - rewrite forallb_forall in F1. specialize (F1 _ (part_parts _ _ H0)). apply andb_true_iff in F1. apply F1.
  - rewrite forallb_forall in F1. specialize (F1 _ (part_parts _ _ H0)). apply andb_true_iff in F1. apply F1.
  - intros Ht. apply one_of_in in Ht. rewrite Ht in F2. auto.
  - intros Ht. apply one_of_in in Ht. rewrite Ht in F3. auto.
Qed.
Lemma all_written ps m : written lk start ps m -> written_ok ps m = true.
Proof.
  intros [m' Hp|r def m' L Hp].
  - unfold expandable_b in H. apply andb_true_iff in H. destruct H as [F _]. rewrite forallb_forall in F.
    apply F, part_parts; auto.
  - apply (rule_ok _ _ L); auto.
Qed.

Lemma written_targets ps m name : written_ok ps m = true -> names_target m name -> In name targets.
Proof.
  intros W Hn. unfold written_ok in W. apply andb_true_iff in W. destruct W as [W _]. apply andb_true_iff in W.
  destruct W as [W _]. rewrite forallb_forall in W. apply one_of_in, W.
  destruct Hn as (args & [->|[->|(l & -> & Hin)]]); cbn; auto.
  apply in_flat_map. exists (NRule name args). split; auto. left; auto.
Qed.
Lemma target_in name : target lk start name -> In name targets.
Proof.
  induction 1 as [m name Hp Hn|r def m name L Hp Hn|r def name args Ht IH L B|r def l name args Ht IH L B Hin].
  - eapply written_targets; [|exact Hn]. apply all_written. apply written_start; auto.
  - eapply written_targets; [|exact Hn]. apply all_written. eapply written_rule; eauto.
  - pose proof (proj1 (proj2 (rule_ok _ _ L)) IH) as Q. unfold target_ok in Q. rewrite B in Q.
    apply andb_true_iff in Q. apply one_of_in, Q.
  - pose proof (proj1 (proj2 (rule_ok _ _ L)) IH) as Q. unfold target_ok in Q. rewrite B in Q.
    rewrite forallb_forall in Q. specialize (Q _ Hin). cbn in Q. apply andb_true_iff in Q. apply one_of_in, Q.
Qed.
Lemma measured_ok ps n : measured lk start ps n -> size_ok ps n = true.
Proof.
  induction 1 as [ps a b W|ps name args def M IH Hn L|ps name args ps' m x M IH Hin W P].
  - apply all_written in W. unfold written_ok in W. apply andb_true_iff in W. destruct W as [W _].
    apply andb_true_iff in W. apply W.
  - cbn in IH. apply one_of_not, negb_true_iff in Hn. rewrite Hn in IH. apply one_of_in in IH.
    apply (rule_ok _ _ L); auto.
  - apply one_of_in in Hin. cbn in IH. rewrite Hin in IH. apply existsb_exists in IH.
    destruct IH as ([qs q] & Hq & E). cbn in E. apply andb_true_iff in E. destruct E as [E1 E2].
    apply texts_eqb_eq in E1. apply text_eqb_eq in E2. subst qs q.
    destruct P as (r & args' & def & Hm & L & <- & A). apply all_written in W. unfold written_ok in W.
    apply andb_true_iff in W. destruct W as [_ W].
    assert (Ha : application m = Some (r, args')) by (destruct Hm as [->|[->| ->]]; auto).
    rewrite Ha, (proj1 (lk_get _ _ L)) in W. rewrite forallb_forall in W. specialize (W _ Hq). cbn in W.
    rewrite texts_eqb_refl, A in W. auto.
Qed.

Theorem expandable_checked : expandable lk start.
Proof.
  split; [|split].
  - intros name def L m Hp. destruct (proj1 (rule_ok _ _ L) m Hp) as [_ Q].
    destruct m; auto; cbn in Q.
    + apply one_of_not; auto.
    + apply one_of_not; auto.
    + intros i Hi. rewrite forallb_forall in Q. apply is_param_ref_not; auto.
  - intros name def Ht L. pose proof (proj1 (proj2 (rule_ok _ _ L)) (target_in _ Ht)) as Q. unfold target_ok in Q. split.
    + intros (nm & args & B & Hin). rewrite B in Q. apply andb_true_iff in Q. destruct Q as [Q _].
      apply one_of_not in Q. contradiction.
    + intros l i B Hi (nm & args & -> & Hin). rewrite B in Q. rewrite forallb_forall in Q. specialize (Q _ Hi). cbn in Q.
      apply andb_true_iff in Q. destruct Q as [Q _]. apply one_of_not in Q. contradiction.
  - intros ps a b i M. apply measured_ok in M. cbn in M. apply andb_true_iff in M.
    split; apply is_param_ref_not; apply M.
Qed.
End Check.
