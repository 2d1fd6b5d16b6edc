(** Model of the parts of the nom 7 crate used by src/parser/mod.rs (the
    [complete] parsers on [&str], with the error type of
    src/parser/parse_err.rs).  The crate's source is not part of /repo; the
    definitions follow its documented behaviour and implementation. *)
From Coq Require Import List Bool Arith NArith String.
From Verif Require Import Base Util.
Import ListNotations.
Open Scope list_scope.

(** [nom::IResult<&str, A, CowParseError>]: success with the remaining input,
    [Err::Error] (recoverable), [Err::Failure] (not recoverable).
    [Err::Incomplete] is never produced by complete parsers.  [Crash] is a
    panic; [NoFuel] means that the model's fuel ran out (never happens, see
    ParserFuel.v). *)
Inductive pres (A : Type) :=
| Done (a : A) (rest : text)
| Soft (e : parse_error)
| Hard (e : parse_error)
| Crash
| NoFuel.
Arguments Done {A}. Arguments Soft {A}. Arguments Hard {A}. Arguments Crash {A}. Arguments NoFuel {A}.

Definition parser (A : Type) := text -> pres A.

(** src/parser/parse_err.rs 92-95 ([from_error_kind], which ignores nom's kind)
    as raised by nom's parsers at an input. *)
Definition nom_err (i : text) : parse_error := PErr Unparseable i.

(** Sequencing ([?] on an [IResult]). *)
Definition bindp {A B} (p : parser A) (f : A -> parser B) : parser B :=
  fun i =>
    match p i with
    | Done a r => f a r
    | Soft e => Soft e
    | Hard e => Hard e
    | Crash => Crash
    | NoFuel => NoFuel
    end.

Definition ret {A} (a : A) : parser A := fun i => Done a i.
(** nom [combinator::map]. *)
Definition mapp {A B} (f : A -> B) (p : parser A) : parser B := bindp p (fun a => ret (f a)).
(** nom [combinator::value]. *)
Definition valuep {A B} (b : B) (p : parser A) : parser B := mapp (fun _ => b) p.
(** nom [sequence::pair]. *)
Definition pairp {A B} (p : parser A) (q : parser B) : parser (A * B) :=
  bindp p (fun a => bindp q (fun b => ret (a, b))).
(** nom [sequence::preceded]. *)
Definition preceded {A B} (p : parser A) (q : parser B) : parser B := bindp p (fun _ => q).
(** nom [sequence::terminated]. *)
Definition terminated {A B} (p : parser A) (q : parser B) : parser A :=
  bindp p (fun a => bindp q (fun _ => ret a)).
(** nom [sequence::delimited]. *)
Definition delimited {A B C} (p : parser A) (q : parser B) (r : parser C) : parser B :=
  bindp p (fun _ => bindp q (fun b => bindp r (fun _ => ret b))).
(** nom [sequence::separated_pair]. *)
Definition separated_pair {A B C} (p : parser A) (q : parser B) (r : parser C) : parser (A * C) :=
  bindp p (fun a => bindp q (fun _ => bindp r (fun c => ret (a, c)))).

(** nom [combinator::opt]. *)
Definition opt {A} (p : parser A) : parser (option A) :=
  fun i =>
    match p i with
    | Done a r => Done (Some a) r
    | Soft _ => Done None i
    | Hard e => Hard e
    | Crash => Crash
    | NoFuel => NoFuel
    end.
(** nom [branch::alt] for two parsers; larger tuples are nested to the right.
    The error is the one of the last alternative ([ParseError::or] and
    [append], parse_err.rs 97-101). *)
Definition orp {A} (p q : parser A) : parser A :=
  fun i =>
    match p i with
    | Soft _ => q i
    | r => r
    end.

(** The input consumed between [i] and the remaining input [r] (nom
    [Offset]/[Slice]; [r] is always a suffix of [i]). *)
Definition consumed (i r : text) : text := firstn (List.length i - List.length r) i.
(** nom [combinator::recognize]. *)
Definition recognize {A} (p : parser A) : parser text :=
  fun i =>
    match p i with
    | Done _ r => Done (consumed i r) r
    | Soft e => Soft e
    | Hard e => Hard e
    | Crash => Crash
    | NoFuel => NoFuel
    end.

(** nom [multi::many0]; one unit of fuel per iteration.  A success without
    progress is an error. *)
Fixpoint many0_f {A} (n : nat) (p : parser A) (i : text) : pres (list A) :=
  match n with
  | O => NoFuel
  | S n' =>
      match p i with
      | Done a r =>
          if Nat.eqb (List.length r) (List.length i) then Soft (nom_err i)
          else
            match many0_f n' p r with
            | Done l r' => Done (a :: l) r'
            | Soft e => Soft e
            | Hard e => Hard e
            | Crash => Crash
            | NoFuel => NoFuel
            end
      | Soft _ => Done [] i
      | Hard e => Hard e
      | Crash => Crash
      | NoFuel => NoFuel
      end
  end.
Definition many0 {A} (p : parser A) : parser (list A) := fun i => many0_f (S (List.length i)) p i.
(** nom [multi::many1]. *)
Definition many1 {A} (p : parser A) : parser (list A) :=
  bindp p (fun a => bindp (many0 p) (fun l => ret (a :: l))).

(** nom [multi::separated_list1]. *)
Fixpoint sep_loop_f {A B} (n : nat) (sep : parser B) (p : parser A) (i : text) : pres (list A) :=
  match n with
  | O => NoFuel
  | S n' =>
      match sep i with
      | Done _ i1 =>
          if Nat.eqb (List.length i1) (List.length i) then Soft (nom_err i1)
          else
            match p i1 with
            | Done a i2 =>
                match sep_loop_f n' sep p i2 with
                | Done l r => Done (a :: l) r
                | Soft e => Soft e
                | Hard e => Hard e
                | Crash => Crash
                | NoFuel => NoFuel
                end
            | Soft _ => Done [] i
            | Hard e => Hard e
            | Crash => Crash
            | NoFuel => NoFuel
            end
      | Soft _ => Done [] i
      | Hard e => Hard e
      | Crash => Crash
      | NoFuel => NoFuel
      end
  end.
Definition separated_list1 {A B} (sep : parser B) (p : parser A) : parser (list A) :=
  bindp p (fun a => bindp (fun i => sep_loop_f (S (List.length i)) sep p i) (fun l => ret (a :: l))).

(** nom [combinator::all_consuming]. *)
Definition all_consuming {A} (p : parser A) : parser A :=
  bindp p (fun a r => match r with [] => Done a [] | _ :: _ => Soft (nom_err r) end).

(** nom [combinator::map_res] with parse_err.rs 63-70 ([from_external_error]). *)
Definition map_res {A B} (p : parser A) (f : A -> B + parse_error) : parser B :=
  bindp p (fun a r =>
    match f a with
    | inl b => Done b r
    | inr _ => Soft (PErr Unparseable (txt "nom-error"))
    end).

(** * Characters *)

(** nom [bytes::complete::tag]. *)
Fixpoint strip (p i : text) : option text :=
  match p, i with
  | [], _ => Some i
  | a :: p', b :: i' => if N.eqb a b then strip p' i' else None
  | _ :: _, [] => None
  end.
Definition tag (s : string) : parser text :=
  fun i =>
    match strip (txt s) i with
    | Some r => Done (txt s) r
    | None => Soft (nom_err i)
    end.

(** One character satisfying a predicate. *)
Definition satisfy (f : N -> bool) : parser N :=
  fun i =>
    match i with
    | c :: r => if f c then Done c r else Soft (nom_err i)
    | [] => Soft (nom_err i)
    end.
(** nom [character::complete::char]. *)
Definition charp (c : N) : parser N := satisfy (N.eqb c).
(** nom [character::complete::one_of]. *)
Definition one_of_chars (s : string) : parser N := satisfy (fun c => existsb (N.eqb c) (txt s)).
(** nom [character::complete::anychar]. *)
Definition anychar : parser N := satisfy (fun _ => true).

Fixpoint span (f : N -> bool) (i : text) : text * text :=
  match i with
  | c :: i' => if f c then let (a, b) := span f i' in (c :: a, b) else ([], i)
  | [] => ([], [])
  end.
(** nom [bytes::complete::take_while1]; also [digit1], [hex_digit1] and
    [multispace1] are of this form. *)
Definition take_while1 (f : N -> bool) : parser text :=
  fun i =>
    match span f i with
    | ([], _) => Soft (nom_err i)
    | (a, b) => Done a b
    end.
Definition take_while0 (f : N -> bool) : parser text :=
  fun i => let (a, b) := span f i in Done a b.

Definition in_range (a b c : N) : bool := N.leb a c && N.leb c b.
(** [char::is_ascii_digit], [is_ascii_hexdigit], [is_ascii_alphabetic]. *)
Definition is_digit (c : N) : bool := in_range 0x30 0x39 c.
Definition is_hex_digit (c : N) : bool := is_digit c || in_range 0x41 0x46 c || in_range 0x61 0x66 c.
Definition is_alpha (c : N) : bool := in_range 0x41 0x5a c || in_range 0x61 0x7a c.

Definition digit0 : parser text := take_while0 is_digit.
Definition digit1 : parser text := take_while1 is_digit.
Definition hex_digit1 : parser text := take_while1 is_hex_digit.
(** nom [multispace1]: space, tab, CR, LF. *)
Definition is_multispace (c : N) : bool := N.eqb c 0x20 || N.eqb c 9 || N.eqb c 13 || N.eqb c 10.
Definition multispace1 : parser text := take_while1 is_multispace.

(** nom [character::complete::not_line_ending]: everything up to a line feed or
    CR LF; an error if the first CR is not followed by a line feed. *)
Definition is_not_eol (c : N) : bool := negb (N.eqb c 13 || N.eqb c 10).
Definition not_line_ending : parser text :=
  fun i =>
    let (a, b) := span is_not_eol i in
    match b with
    | c :: b' =>
        if N.eqb c 13 then
          match b' with
          | c' :: _ => if N.eqb c' 10 then Done a b else Soft (nom_err i)
          | [] => Soft (nom_err i)
          end
        else Done a b
    | [] => Done a b
    end.
