(** Steady alternatives are all tried on the same data: the verdict with a choice
    is the verdict with one of its alternatives written in place. *)
From Coq Require Import List Bool ZArith NArith String Lia Arith Permutation.
From Verif Require Import Base Util Data Value Convert Ivt Scalar Validate Unfold Mono Total Fun ValueOrder
  ArrayInv MapInv ConvertProofs NoPanic SpecCtx CtxProofs SpecBase SpecData MapProofs SpecPos GroupProofs SpecVerdict Frame Splice SpecPeg PegProofs PegExact PegTame.
Import ListNotations.

Section Pick.
Context {D Ent St : Type}.
Variable mk : D -> list (list Ent) -> St.
Variable get : St -> D.
Hypothesis get_mk : forall a S, get (mk a S) = a.
Variable ok : St -> Prop.
Variable stop : verror -> bool.
Variable f : node -> St -> res unit * St.
Hypothesis f_uni : forall m, uni mk (f m).
Hypothesis f_ok : forall m s r s', ok s -> f m s = (r, s') -> ok s'.
Hypothesis f_np : forall m s, ok s -> fst (f m s) <> Panic.
Variable fin : verror.
Hypothesis fin_mm : is_mismatch fin = true.

Definition agree (x y : res unit * St) : Prop := same_verdict (fst x) (fst y) /\ get (snd x) = get (snd y).
Lemma pick os a : os <> [] ->
  (forall m s e s', In m os -> ok s -> f m s = (Err e, s') -> stop e = false -> is_mismatch e = true /\ get s' = get s) ->
  forall S, ok (mk a S) -> exists o, In o os /\ agree (tries stop f os fin (mk a S)) (f o (mk a S)).
Proof.
  induction os as [|o os IH]; [congruence|]. intros _ H S K. cbn [tries].
  destruct (f_uni o a) as [P|(r & a' & d & Np & U)]; [destruct (f_np o _ K); apply P|]. pose proof (U S) as F.
  assert (Here : forall x, x = f o (mk a S) -> exists o', In o' (o :: os) /\ agree x (f o' (mk a S))).
  { intros x ->. exists o. split; [left; auto|]. split; auto. rewrite F. cbn. destruct r; cbn; auto; congruence. }
  rewrite F. destruct r as [[]|e|]; [apply Here; auto| |congruence]. destruct (stop e) eqn:Se; [apply Here; auto|].
  destruct (H o _ _ _ (or_introl eq_refl) K F Se) as [M G]. rewrite !get_mk in G. subst a'.
  destruct os as [|o2 os].
  - exists o. split; [left; auto|]. rewrite F. split; cbn; [|rewrite !get_mk; auto]. destruct e, fin; try discriminate; reflexivity.
  - pose proof (f_ok _ _ _ _ K F) as K'. destruct (IH ltac:(discriminate) (fun m s e s' I => H m s e s' (or_intror I)) _ K') as (o' & I & A & B).
    exists o'. split; [right; auto|]. destruct (f_uni o' a) as [P|(r' & a'' & d' & Np' & U')]; [destruct (f_np o' _ K); apply P|].
    rewrite U' in *. cbn [fst snd] in *. rewrite get_mk in *. split; auto. cbn. rewrite get_mk. auto.
Qed.

Lemma seqs_ok ms : forall s r s', ok s -> seqs f ms s = (r, s') -> ok s' /\ r <> Panic.
Proof.
  induction ms as [|m ms IH]; intros s r s' K E; cbn in E; [inversion E; subst; split; auto; discriminate|].
  pose proof (f_np m s K) as Np. destruct (f m s) as [[u|e|] s1] eqn:F; [apply (IH s1); eauto| |cbn in Np; congruence].
  inversion E; subst. split; [eauto|discriminate].
Qed.
Lemma agree_refl x : fst x <> Panic -> agree x x.
Proof. intros N. split; auto. destruct (fst x); cbn; auto; congruence. Qed.
Lemma pick_seqs ch pre os post a : os <> [] -> (forall s, f ch s = tries stop f os fin s) ->
  (forall m s e s', In m os -> ok s -> f m s = (Err e, s') -> stop e = false -> is_mismatch e = true /\ get s' = get s) ->
  ok (mk a []) -> exists o, In o os /\ agree (seqs f (pre ++ ch :: post) (mk a [])) (seqs f (pre ++ o :: post) (mk a [])).
Proof.
  intros N Hc H K.
  assert (First : exists o, In o os) by (destruct os as [|o ?]; [congruence|exists o; left; auto]). destruct First as (o0 & I0).
  destruct (uni_seqs mk f pre f_uni a) as [P|(r & a1 & d & Np & U)].
  { specialize (P []). destruct (seqs f pre (mk a [])) as [r s] eqn:E. cbn in P. destruct (seqs_ok _ _ _ _ K E). congruence. }
  pose proof (U []) as F. destruct (seqs_ok _ _ _ _ K F) as [K1 _].
  assert (Q : forall x, seqs f (pre ++ x :: post) (mk a []) = match r with Ok _ => seqs f (x :: post) (mk a1 (push d [])) | _ => (r, mk a1 (push d [])) end).
  { intros x. rewrite seqs_app, F. destruct r; auto. }
  destruct r as [u|e|]; [|exists o0; split; auto; rewrite !Q; apply agree_refl; discriminate|congruence].
  destruct (pick os a1 N H _ K1) as (o & I & A & B). exists o. split; auto. rewrite !Q. cbn [seqs]. rewrite <- Hc in *.
  destruct (f_uni ch a1) as [P|(r1 & x1 & d1 & Np1 & U1)]; [destruct (f_np ch _ K1); apply P|].
  destruct (f_uni o a1) as [P|(r2 & x2 & d2 & Np2 & U2)]; [destruct (f_np o _ K1); apply P|].
  pose proof (f_ok _ _ _ _ K1 (U1 _)) as K2. rewrite U1, U2 in *. cbn [fst snd] in A, B. rewrite !get_mk in B. subst x2.
  destruct r1 as [u1|e1|], r2 as [u2|e2|]; cbn in A; try contradiction; [|split; cbn; [auto|rewrite !get_mk; auto]].
  destruct (uni_seqs mk f post f_uni x1) as [P|(r3 & x3 & d3 & Np3 & U3)].
  { destruct (seqs f post (mk x1 (push d1 (push d [])))) as [r s] eqn:E. destruct (seqs_ok _ _ _ _ K2 E) as [_ NP]. specialize (P (push d1 (push d []))). rewrite E in P. cbn in P. congruence. }
  rewrite !U3. split; cbn; [destruct r3; cbn; auto; congruence|rewrite !get_mk; auto].
Qed.
End Pick.

Section WithX.
Variable X : ext.
Variable lk : lookup_context.
Hypothesis Hlk : forall name e, lk name = inr e -> is_fatal e = true.

Lemma verdict_refl (r : res unit) : r <> Panic -> same_verdict r r. Proof. destruct r; cbn; auto. Qed.
Theorem array_alternatives c v pre os post : wf_value v -> os <> [] -> (forall o, In o os -> steady lk c o) ->
  exists o, In o os /\ same_verdict (val X lk v (NArray (pre ++ NChoice os :: post)) c) (val X lk v (NArray (pre ++ o :: post)) c).
Proof.
  intros W N H. apply wf_keys_sorted in W.
  assert (First : exists o, In o os) by (destruct os as [|o ?]; [congruence|exists o; left; auto]). destruct First as (o0 & I0).
  destruct v as [ | | | | | |a| ]; try (exists o0; split; auto; rewrite !val_eq; reflexivity).
  assert (K0 : arr_ok (WA a [])) by (split; [apply keys_sorted_array; auto|constructor]).
  destruct (pick_seqs WA wa_array (fun _ _ => eq_refl) arr_ok is_fatal (fun m w => aval X lk m w c) (aval_uni X lk c)
    (fun m s r s' K E => aval_ok X lk m s c r s' K E) (fun m s K => aval_nopanic X lk m s c K) (choice_error os) eq_refl (NChoice os) pre os post a N) as (o & I & A & B); auto.
  - intros s. rewrite aval_eq. reflexivity.
  - intros m s e s' I K E Se. destruct e; try discriminate.
    + split; auto. eapply (steady_keeps X lk Hlk); eauto.
    + exfalso. assert (clean (fun e => forall m, e <> EMapCut m) (fst (aval X lk m s c))) as [_ Cl'].
      { apply (aval_clean X lk nocut); auto; try (unfold nocut; discriminate). intros nm e0 Hn m0 ->. specialize (Hlk _ _ Hn). discriminate. }
      rewrite E in Cl'. destruct (Cl' _ eq_refl expected). auto.
  - exists o. split; auto. rewrite !val_eq. unfold array_all, wa_new. 
    destruct (seqs (fun m w => aval X lk m w c) (pre ++ NChoice os :: post) (WA a [])) as [[u|e|] s1];
    destruct (seqs (fun m w => aval X lk m w c) (pre ++ o :: post) (WA a [])) as [[u'|e'|] s2]; cbn in A, B |- *; try contradiction; auto.
    rewrite B. destruct (wa_array s2); reflexivity.
Qed.
Theorem map_alternatives c v pre os post : wf_value v -> os <> [] -> (forall o, In o os -> steady_m lk c o) ->
  exists o, In o os /\ same_verdict (val X lk v (NMap (pre ++ NChoice os :: post)) c) (val X lk v (NMap (pre ++ o :: post)) c).
Proof.
  intros W N H. apply wf_keys_sorted in W.
  assert (First : exists o, In o os) by (destruct os as [|o ?]; [congruence|exists o; left; auto]). destruct First as (o0 & I0).
  destruct v as [ | | | | | | |a]; try (exists o0; split; auto; rewrite !val_eq; reflexivity).
  pose proof (keys_map_ok _ W) as K0.
  destruct (pick_seqs WM wm_map (fun _ _ => eq_refl) map_ok (fun e => negb (is_mismatch e)) (fun m w => mval X lk m w c) (mval_uni X lk c)
    (fun m s r s' K E => mval_ok X lk m s c r s' K E) (fun m s K => mval_nopanic X lk m s c K) (choice_error os) eq_refl (NChoice os) pre os post a N) as (o & I & A & B); auto.
  - intros s. rewrite mval_eq. reflexivity.
  - intros m s e s' I K E Se. destruct e; try discriminate. split; auto. eapply (proj1 (steady_m_keeps X lk Hlk)); eauto.
  - exists o. split; auto. rewrite !val_eq. unfold map_all, wm_new. 
    destruct (seqs (fun m w => mval X lk m w c) (pre ++ NChoice os :: post) (WM a [])) as [[u|e|] s1];
    destruct (seqs (fun m w => mval X lk m w c) (pre ++ o :: post) (WM a [])) as [[u'|e'|] s2]; cbn in A, B |- *; try contradiction; auto.
    + rewrite B. destruct (wm_map s2); reflexivity.
    + destruct e, e'; cbn in *; congruence.
Qed.
End WithX.
