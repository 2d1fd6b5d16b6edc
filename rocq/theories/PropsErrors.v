(** What the error of a rejected schema text says: C63. *)
From Coq Require Import List Bool Arith ZArith NArith String Lia.
From Verif Require Import Base Util Data Ivt Ast Nom Parser SpecSyntax SpecReading TokenProofs SpecErrors ErrProofs PropsRead PropsParser PropsPrint.
Import ListNotations.
Open Scope list_scope.

Section Props.
Variable X : ext.

(** * C63: a rejected text is rejected for a reason that the error names. *)
Theorem C63_errors i e : parse_cddl X i = Some (inr e) -> fault X i e \/ pe_kind e = Unparseable /\ stuck X i (pe_ctx e).
Proof. apply parse_error_meaning. Qed.

(** Every other kind is about a literal that occurs in the text and has no value. *)
Theorem C63_literal i e : parse_cddl X i = Some (inr e) -> pe_kind e <> Unparseable ->
  exists q s r, i = q ++ s ++ r /\ malformed X s e.
Proof.
  intros H N. apply C63_errors in H. destruct H as [F|[K _]]; [|tauto]. revert N. destruct F as [q s r e' M|q j n a k m D A W]; intros N; [eauto|exfalso; apply N; reflexivity].
Qed.

Lemma digits_in s d : digits_of s d -> exists q, s = q ++ d.
Proof. intros []; eauto. exists []. reflexivity. Qed.
(** The context is a piece of the text, except that a hex literal is shown
    without spaces and that the last kind of fault has a message of its own. *)
Theorem C63_context i e : parse_cddl X i = Some (inr e) ->
  (exists q r, i = q ++ pe_ctx e ++ r) \/
  (exists q s r, i = q ++ txt "h'" ++ s ++ txt "'" ++ r /\ without_spaces s (pe_ctx e)) \/
  pe_ctx e = txt "Bareword with generic arguments".
Proof.
  assert (Q : forall s e, malformed X s e -> (exists q r, s = q ++ pe_ctx e ++ r) \/ exists s', s = txt "h'" ++ s' ++ txt "'" /\ without_spaces s' (pe_ctx e)).
  { clear. intros s e [s' n d U L D|s' n d U L D|sg s' n f x _ _ _ _ _ _|s' _ _|s' _ _|s' t _ W _|s' _ _]; cbn [pe_ctx]; eauto; left.
    - apply digits_in in D. destruct D as (q & ->). exists q, []. now rewrite app_nil_r.
    - apply digits_in in D. destruct D as (q & ->). exists (txt "-" ++ q), []. now rewrite app_nil_r, app_assoc.
    - exists [], []. now rewrite app_nil_r. }
  intros H. apply C63_errors in H. destruct H as [[q s r e' M|q j n a k m D A W]|[K St]]; [|right; right; reflexivity|].
  - destruct (Q _ _ M) as [(q' & r' & ->)|(s' & -> & W)]; [left; exists (q ++ q'), (r' ++ r)|right; left; exists q, s', r]; now rewrite <- !app_assoc.
  - left. destruct St as [i j q k (S & _) _ ->|i j c q k (S & _) -> _ _ _ _].
    + apply ws_cuts in S. destruct S as [c ->]. exists (c ++ q), []. now rewrite app_nil_r, app_assoc.
    + apply ws_cuts in S. destruct S as [c' ->]. exists (c' ++ q), []. now rewrite app_nil_r, app_assoc.
Qed.
End Props.

(** Each kind of error, with its context. *)
Definition err (s : string) : option parse_error := match parse_cddl ascii_ext (txt s) with Some (inr e) => Some e | _ => None end.
Example ex_C63 :
  err "a = 1 b = [ 0x1ffffffffffffffff ]" = Some (PErr MalformedInteger (txt "1ffffffffffffffff")) /\
  err "a = -9223372036854775809" = Some (PErr MalformedInteger (txt "9223372036854775809")) /\
  err "a = 1.75" = Some (PErr MalformedFloat (txt "1.75")) /\
  err "a = h'0 1 x'" = Some (PErr MalformedHex (txt "01x")) /\
  err "a = { b<c> : 1 }" = Some (PErr Unparseable (txt "Bareword with generic arguments")) /\
  err "a = int b = ]" = Some (PErr Unparseable (txt "b = ]")) /\
  err " a = [ 1 2" = Some (PErr Unparseable (txt "[ 1 2")) /\
  err "" = Some (PErr Unparseable []).
Proof. vm_compute. repeat split. Qed.

Print Assumptions C63_errors.
Print Assumptions C63_literal.
Print Assumptions C63_context.
