(** Properties of reading schema texts: C61. *)
From Coq Require Import List Bool Arith ZArith NArith String Lia.
From Verif Require Import Base Util Data Ivt Ast Nom Parser NomDone SpecSyntax ParserSound SpecReading ReadTokens ReadComplete ReadExact PropsParser Demo PropsPrint.
Import ListNotations.
Open Scope list_scope.

Section Props.
Variable X : ext.

(** * C61: the parser returns exactly the tree that SpecReading.v reads: longest
    tokens, all whitespace skipped, every phrase continued as far as the next
    character says. *)
Theorem C61_exact i c : parse_cddl X i = Some (inl c) <-> u_cddl X i c.
Proof. apply cddl_iff. Qed.
(** The text determines the tree ... *)
Theorem C61_unique i c c' : u_cddl X i c -> u_cddl X i c' -> c = c'.
Proof. intros H H'. apply C61_exact in H, H'. congruence. Qed.
(** ... which is one of those that the grammar allows. *)
Theorem C61_in_grammar i c : u_cddl X i c -> d_cddl X i c.
Proof. intros H. apply C61_exact in H. apply C50_parse_sound in H. auto. Qed.
(** A text that is not read is reported as an error, and no other text is. *)
Theorem C61_error i : (exists e, parse_cddl X i = Some (inr e)) <-> forall c, ~ u_cddl X i c.
Proof.
  split.
  - intros [e E] c U. apply C61_exact in U. congruence.
  - intros N. destruct (C42_parse_total X i) as [[c|e] E]; eauto. destruct (N c). apply C61_exact. auto.
Qed.
End Props.

Definition dense : text := txt "a={1..10 ? ""x""=>int,b:[*c<tstr>](d,)}b=~c<d>".
Definition name (s : string) : type1 := T1Simple (T2Typename (txt s) []).
Definition dense_tree : list rule :=
  [Rule (txt "a") [] (AssignType [T1Simple (T2Map [[
     GrpEnt None (GMember None [T1Range (T2Value (AUint 1)) (T2Value (AUint 10)) true]);
     GrpEnt (Some OOptional) (GMember (Some (MKey (MKType1 (T1Simple (T2Value (AText (txt "x"))))) false)) [name "int"]);
     GrpEnt None (GMember (Some (MKey (MKBareword (txt "b")) true))
       [T1Simple (T2Array [[GrpEnt (Some OZeroOrMore) (GMember None [T1Simple (T2Typename (txt "c") [name "tstr"])])]])]);
     GrpEnt None (GParen [[GrpEnt None (GMember None [name "d"])]])]])]);
   Rule (txt "b") [] (AssignType [T1Simple (T2Unwrap (txt "c") [name "d"])])].
Example ex_C61_read : u_cddl ascii_ext dense dense_tree.
Proof. apply C61_exact. vm_compute. reflexivity. Qed.
(** The grammar also allows a group name where the parser reads a type. *)
Example ex_C61_only : ~ u_cddl ascii_ext (txt "a=[b]") [Rule (txt "a") [] (AssignType [T1Simple (T2Array [[GrpEnt None (GGroupname (txt "b"))]])])].
Proof. intros H. apply C61_exact in H. vm_compute in H. discriminate. Qed.
Example ex_C61_error : forall c, ~ u_cddl ascii_ext (txt "a=b<c") c.
Proof. apply C61_error. eexists. vm_compute. reflexivity. Qed.

Print Assumptions C61_exact.
Print Assumptions C61_unique.
Print Assumptions C61_in_grammar.
Print Assumptions C61_error.
