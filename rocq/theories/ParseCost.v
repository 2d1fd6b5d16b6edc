(** The parser of Parser.v with a counter: the number of calls of basic parsers
    (white space, identifiers, literals, occurrence indicators, single characters and
    fixed strings).  Each of them reads its part of the text from left to right.  The
    definitions follow Nom.v and Parser.v line by line; ParseCostProofs.v shows that
    without the counter they are the same parser. *)
From Coq Require Import List Bool Arith NArith String.
From Verif Require Import Base Util Data Ivt Ast Nom Parser.
Import ListNotations.
Open Scope list_scope.

Definition cparser (A : Type) := text -> pres A * nat.
Definition plus {A} (k : nat) (r : pres A * nat) : pres A * nat := (fst r, k + snd r).

(** One call of a basic parser. *)
Definition call {A} (p : parser A) : cparser A := fun i => (p i, 1).
(** The combinators of Nom.v. *)
Definition cbind {A B} (p : cparser A) (f : A -> cparser B) : cparser B :=
  fun i =>
    match p i with
    | (Done a r, k) => plus k (f a r)
    | (Soft e, k) => (Soft e, k)
    | (Hard e, k) => (Hard e, k)
    | (Crash, k) => (Crash, k)
    | (NoFuel, k) => (NoFuel, k)
    end.
Definition cret {A} (a : A) : cparser A := fun i => (Done a i, 0).
Definition cmap {A B} (f : A -> B) (p : cparser A) : cparser B := cbind p (fun a => cret (f a)).
Definition cpair {A B} (p : cparser A) (q : cparser B) : cparser (A * B) :=
  cbind p (fun a => cbind q (fun b => cret (a, b))).
Definition cpreceded {A B} (p : cparser A) (q : cparser B) : cparser B := cbind p (fun _ => q).
Definition cterminated {A B} (p : cparser A) (q : cparser B) : cparser A :=
  cbind p (fun a => cbind q (fun _ => cret a)).
Definition cdelimited {A B C} (p : cparser A) (q : cparser B) (r : cparser C) : cparser B :=
  cbind p (fun _ => cbind q (fun b => cbind r (fun _ => cret b))).
Definition cseparated_pair {A B C} (p : cparser A) (q : cparser B) (r : cparser C) : cparser (A * C) :=
  cbind p (fun a => cbind q (fun _ => cbind r (fun c => cret (a, c)))).
Definition copt {A} (p : cparser A) : cparser (option A) :=
  fun i =>
    match p i with
    | (Done a r, k) => (Done (Some a) r, k)
    | (Soft _, k) => (Done None i, k)
    | (Hard e, k) => (Hard e, k)
    | (Crash, k) => (Crash, k)
    | (NoFuel, k) => (NoFuel, k)
    end.
Definition cor {A} (p q : cparser A) : cparser A :=
  fun i =>
    match p i with
    | (Soft _, k) => plus k (q i)
    | r => r
    end.
Fixpoint cmany0_f {A} (n : nat) (p : cparser A) (i : text) : pres (list A) * nat :=
  match n with
  | O => (NoFuel, 0)
  | S n' =>
      match p i with
      | (Done a r, k) =>
          if Nat.eqb (List.length r) (List.length i) then (Soft (nom_err i), k)
          else
            plus k match cmany0_f n' p r with
                   | (Done l r', k) => (Done (a :: l) r', k)
                   | (Soft e, k) => (Soft e, k)
                   | (Hard e, k) => (Hard e, k)
                   | (Crash, k) => (Crash, k)
                   | (NoFuel, k) => (NoFuel, k)
                   end
      | (Soft _, k) => (Done [] i, k)
      | (Hard e, k) => (Hard e, k)
      | (Crash, k) => (Crash, k)
      | (NoFuel, k) => (NoFuel, k)
      end
  end.
Definition cmany0 {A} (p : cparser A) : cparser (list A) := fun i => cmany0_f (S (List.length i)) p i.
Definition cmany1 {A} (p : cparser A) : cparser (list A) :=
  cbind p (fun a => cbind (cmany0 p) (fun l => cret (a :: l))).
Fixpoint csep_loop_f {A B} (n : nat) (sep : cparser B) (p : cparser A) (i : text) : pres (list A) * nat :=
  match n with
  | O => (NoFuel, 0)
  | S n' =>
      match sep i with
      | (Done _ i1, k) =>
          if Nat.eqb (List.length i1) (List.length i) then (Soft (nom_err i1), k)
          else
            plus k match p i1 with
                   | (Done a i2, k) =>
                       plus k match csep_loop_f n' sep p i2 with
                              | (Done l r, k) => (Done (a :: l) r, k)
                              | (Soft e, k) => (Soft e, k)
                              | (Hard e, k) => (Hard e, k)
                              | (Crash, k) => (Crash, k)
                              | (NoFuel, k) => (NoFuel, k)
                              end
                   | (Soft _, k) => (Done [] i, k)
                   | (Hard e, k) => (Hard e, k)
                   | (Crash, k) => (Crash, k)
                   | (NoFuel, k) => (NoFuel, k)
                   end
      | (Soft _, k) => (Done [] i, k)
      | (Hard e, k) => (Hard e, k)
      | (Crash, k) => (Crash, k)
      | (NoFuel, k) => (NoFuel, k)
      end
  end.
Definition cseparated_list1 {A B} (sep : cparser B) (p : cparser A) : cparser (list A) :=
  cbind p (fun a => cbind (fun i => csep_loop_f (S (List.length i)) sep p i) (fun l => cret (a :: l))).
Definition call_consuming {A} (p : cparser A) : cparser A :=
  cbind p (fun a r => (match r with [] => Done a [] | _ :: _ => Soft (nom_err r) end, 0)).

Section Cost.
Variable X : ext.
Section Bodies.
Variable c_type1 : cparser type1.
Variable c_group : cparser group.

(** src/parser/mod.rs 1017-1024: [ty], and its separator. *)
Definition c_slash : cparser text := cdelimited (call p_ws) (call (tag "/")) (call p_ws).
Definition c_ty : cparser type_ := cseparated_list1 c_slash c_type1.
(** src/parser/mod.rs 1073-1081: [generic_arg]. *)
Definition c_generic_arg : cparser (list type1) :=
  cdelimited (cpair (call (tag "<")) (call p_ws))
    (cseparated_list1 (cpair (call (tag ",")) (call p_ws)) (cterminated c_type1 (call p_ws)))
    (call (tag ">")).
(** src/parser/mod.rs 1085-1096: [name_generic]. *)
Definition c_name_generic : cparser (text * list type1) :=
  cmap (fun x => (fst x, match snd x with Some l => l | None => [] end)) (cpair (call p_ident) (copt c_generic_arg)).
(** src/parser/mod.rs 555-563: [grpent_memberkey_tail]. *)
Definition c_memberkey_tail : cparser type_ := cpreceded (cpair (call (tag ":")) (call p_ws)) c_ty.
(** src/parser/mod.rs 671-676. *)
Definition c_arrow_tail : cparser (bool * type_) :=
  cmap (fun x => (match fst x with Some _ => true | None => false end, snd x))
    (cpair (copt (cterminated (call (tag "^")) (call p_ws))) (cpreceded (call (tag "=>")) (cpreceded (call p_ws) c_ty))).
(** src/parser/mod.rs 692-697. *)
Definition c_more_choices : cparser type_ := cmany0 (cpreceded c_slash c_type1).
(** src/parser/mod.rs 692-705. *)
Definition cmember_plain (first : type1) : cparser grpent_val :=
  fun i =>
    match c_more_choices i with
    | (Done l r, k) => (Done (GMember None (first :: l)) r, k)
    | (Crash, k) => (Crash, k)
    | (NoFuel, k) => (NoFuel, k)
    | (_, k) => (Soft (PErr Unparseable (txt "grpent_member")), k)
    end.
(** src/parser/mod.rs 671-686. *)
Definition cmember_arrow (first : type1) : cparser grpent_val :=
  fun i =>
    match c_arrow_tail i with
    | (Done x r, k) => (Done (GMember (Some (MKey (MKType1 first) (fst x))) (snd x)) r, k)
    | (Crash, k) => (Crash, k)
    | (NoFuel, k) => (NoFuel, k)
    | (_, k) => plus k (cmember_plain first i)
    end.
(** src/parser/mod.rs 648-662. *)
Definition cmember_colon (first : type1) : cparser grpent_val :=
  fun i =>
    match c_memberkey_tail i with
    | (Done t r, k) =>
        (match assemble_basic_member first t with
         | Some (inl m) => Done m r
         | Some (inr e) => Hard e
         | None => Crash
         end, k)
    | (Crash, k) => (Crash, k)
    | (NoFuel, k) => (NoFuel, k)
    | (_, k) => plus k (cmember_arrow first i)
    end.
(** src/parser/mod.rs 638-705: [grpent_member]. *)
Definition c_grpent_member : cparser grpent_val :=
  cbind (cterminated c_type1 (call p_ws)) (fun first =>
    match first with
    | T1Simple (T2Value _) | T1Simple (T2Typename _ _) => cmember_colon first
    | _ => cmember_arrow first
    end).
(** src/parser/mod.rs 708-718: [grpent_parens]. *)
Definition c_in (open close : N) {A} (p : cparser A) : cparser A :=
  cdelimited (call (charp open)) (cdelimited (call p_ws) p (call p_ws)) (call (charp close)).
(** src/parser/mod.rs 721-728: [grpent_val]. *)
Definition c_grpent_val : cparser grpent_val :=
  cor c_grpent_member (cor (cmap GGroupname (call p_ident)) (cmap GParen (c_in 0x28 0x29 c_group))).
(** src/parser/mod.rs 786-793: [grpent]. *)
Definition c_grpent : cparser grpent :=
  cmap (fun x => GrpEnt (fst x) (snd x)) (cpair (copt (cterminated (call p_occur) (call p_ws))) c_grpent_val).
(** src/parser/mod.rs 797-803: [grpchoice]. *)
Definition c_grpchoice : cparser grpchoice := cmany0 (cterminated c_grpent (call p_optcom)).
(** src/parser/mod.rs 807-834: [group]. *)
Definition cgroup_body : cparser group :=
  cmap (fun x => fst x :: snd x)
    (cpair c_grpchoice (cmany0 (cpreceded (cdelimited (call p_ws) (call (tag "//")) (call p_ws)) c_grpchoice))).
(** src/parser/mod.rs 838-952: [type2]. *)
Definition c_type2 : cparser type2 :=
  cor (cmap T2Value (call (p_value X)))
  (cor (cmap (fun x => T2Typename (fst x) (snd x)) c_name_generic)
  (cor (cmap T2Paren (c_in 0x28 0x29 c_ty))
  (cor (cmap T2Map (c_in 0x7b 0x7d c_group))
  (cor (cmap T2Array (c_in 0x5b 0x5d c_group))
  (cor (cmap (fun x => T2Unwrap (fst x) (snd x)) (cpreceded (call (tag "~")) (cpreceded (call p_ws) c_name_generic)))
  (cor (cmap T2ChoiceifyInline (cpreceded (call (tag "&")) (cpreceded (call p_ws) (c_in 0x28 0x29 c_group))))
       (cmap (fun x => T2Choiceify (fst x) (snd x)) (cpreceded (call (tag "&")) (cpreceded (call p_ws) c_name_generic))))))))).
(** src/parser/mod.rs 967-980: [range_or_control_op]. *)
Definition c_range_or_control : cparser (text * type2) :=
  cpair (cor (call (tag "...")) (cor (call (tag "..")) (call p_control_op))) (cpreceded (call p_ws) c_type2).
(** src/parser/mod.rs 984-1013: [type1]. *)
Definition ctype1_body : cparser type1 :=
  cmap (fun x =>
      match snd x with
      | None => T1Simple (fst x)
      | Some (op, t) =>
          if text_eqb op (txt "..") then T1Range (fst x) t true
          else if text_eqb op (txt "...") then T1Range (fst x) t false
          else T1Control (fst x) t op
      end)
    (cpair c_type2 (copt (cpreceded (call p_ws) c_range_or_control))).
(** src/parser/mod.rs 1044-1057: [rule_val]. *)
Definition c_rule_val : cparser rule_val :=
  cmap snd (cseparated_pair (call (tag "=")) (call p_ws) (cor (cmap AssignType c_ty) (cmap AssignGroup c_grpent))).
(** src/parser/mod.rs 1061-1069: [generic_parm]. *)
Definition c_generic_parm : cparser (list text) :=
  cdelimited (cpair (call (tag "<")) (call p_ws))
    (cseparated_list1 (cpair (call (tag ",")) (call p_ws)) (cterminated (call p_ident) (call p_ws)))
    (call (tag ">")).
(** src/parser/mod.rs 1099-1114: [rule]. *)
Definition c_rule : cparser rule :=
  cmap (fun x => Rule (fst (fst x)) (match snd (fst x) with Some l => l | None => [] end) (snd x))
    (cseparated_pair (cpair (call p_ident) (copt c_generic_parm)) (call p_ws) c_rule_val).
(** src/parser/mod.rs 1118-1126: [cddl]. *)
Definition c_cddl : cparser cddl := cpreceded (call p_ws) (cmany1 (cterminated c_rule (call p_ws))).
End Bodies.

Fixpoint ctype1_f (n : nat) (i : text) {struct n} : pres type1 * nat :=
  match n with
  | O => (NoFuel, 0)
  | S m => ctype1_body (ctype1_f m) (cgroup_f m) i
  end
with cgroup_f (n : nat) (i : text) {struct n} : pres group * nat :=
  match n with
  | O => (NoFuel, 0)
  | S m => cgroup_body (ctype1_f m) (cgroup_f m) i
  end.
Definition cparse_type1 : cparser type1 := fun i => ctype1_f (enough i) i.
Definition cparse_group : cparser group := fun i => cgroup_f (enough i) i.
Definition ccddl : cparser cddl := call_consuming (c_cddl cparse_type1 cparse_group).
(** src/parser/mod.rs 1157-1160: [parse_cddl], and the number of its steps. *)
Definition cparse_cddl (i : text) : option (cddl + parse_error) := finish (fst (ccddl i)).
Definition parse_steps (i : text) : nat := snd (ccddl i).
End Cost.
