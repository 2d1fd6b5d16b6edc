(** Model of the leaf validators of src/validate.rs (no recursion, no lookup)
    and of src/normalize.rs. *)
From Coq Require Import List Bool ZArith NArith String.
From Verif Require Import Base Util Data Value Ivt.
Import ListNotations.
Open Scope list_scope.

Section Scalar.
Variable X : ext.

(** src/validate.rs 382-392: [From<&Literal> for Value]. *)
Definition value_of_literal (l : literal) : value :=
  match l with
  | LBool b => VBool b
  | LInt i => VInteger i
  | LFloat f => VFloat f
  | LText t => VText t
  | LBytes b => VBytes b
  end.

(** src/validate.rs 394-399: [validate_literal]. *)
Definition validate_literal (l : literal) (v : value) : res unit :=
  if veqb v (value_of_literal l) then Ok tt
  else Err (mismatch (show_literal X l)).

(** src/validate.rs 435-455: [validate_prelude_type]. *)
Definition validate_prelude_type (ty : prelude) (v : value) : res unit :=
  match ty, v with
  | PAny, _ => Ok tt
  | PNil, VNull => Ok tt
  | PNil, _ => Err (mismatch (txt "nil"))
  | PBool, VBool _ => Ok tt
  | PBool, _ => Err (mismatch (txt "bool"))
  | PInt, VInteger _ => Ok tt
  | PInt, _ => Err (mismatch (txt "int"))
  | PUint, VInteger x => if (0 <=? x)%Z then Ok tt else Err (mismatch (txt "uint"))
  | PUint, _ => Err (mismatch (txt "uint"))
  | PNint, VInteger x => if (x <? 0)%Z then Ok tt else Err (mismatch (txt "nint"))
  | PNint, _ => Err (mismatch (txt "nint"))
  | PFloat, VFloat _ => Ok tt
  | PFloat, _ => Err (mismatch (txt "float"))
  | PTstr, VText _ => Ok tt
  | PTstr, _ => Err (mismatch (txt "tstr"))
  | PBstr, VBytes _ => Ok tt
  | PBstr, _ => Err (mismatch (txt "bstr"))
  end.

(** src/validate.rs 987-996: [check_range], over the comparison operators of the
    type it is used at. *)
Definition check_range {T} (lt le : T -> T -> bool) (start end_ v : T) (inclusive : bool) : bool :=
  if lt v start then false
  else if inclusive then le v end_ else lt v end_.

(** [std::mem::discriminant] of a [Literal] (used at src/validate.rs 1019). *)
Definition literal_discriminant (l : literal) : N :=
  match l with
  | LBool _ => 0 | LInt _ => 1 | LFloat _ => 2 | LText _ => 3 | LBytes _ => 4
  end%N.

(** src/validate.rs 1003-1030: the comparison part of [validate_range], after the
    endpoints were dereferenced; [shown] is the [Display] of the range. *)
Definition range_compare (shown : text) (start end_ : literal) (inclusive : bool) (v : value)
  : res unit :=
  match start, end_, v with
  | LInt i1, LInt i2, VInteger x =>
      if check_range Z.ltb Z.leb i1 i2 x inclusive then Ok tt else Err (mismatch shown)
  | LFloat f1, LFloat f2, VFloat x =>
      if check_range f64_lt f64_le f1 f2 x inclusive then Ok tt else Err (mismatch shown)
  | _, _, _ =>
      if N.eqb (literal_discriminant start) (literal_discriminant end_)
      then Err (mismatch shown)
      else Err (EStructural (txt "mismatched types on range operator"))
  end.

(** [i128 -> u64] conversion ([try_into]). *)
Definition to_u64 (i : Z) : option N :=
  if (0 <=? i)%Z && (i <=? 18446744073709551615)%Z then Some (Z.to_N i) else None.

(** A normalized [Range] (src/ivt.rs 358) as a triple. *)
Definition range := (node * node * bool)%type.

Definition bad_limit (i : Z) : verror := EStructural (txt "bad .size limit " ++ show_Z i).

(** src/normalize.rs 9-56: [normalize_size_range]. *)
Definition normalize_size_range (size_node : node) : res range :=
  match size_node with
  | NLiteral (LInt i) =>
      match to_u64 i with
      | None => Err (bad_limit i)
      | Some _ => Ok (NLiteral (LInt i), NLiteral (LInt i), true)
      end
  | NRange s e incl =>
      match s with
      | NLiteral (LInt start_i) =>
          match e with
          | NLiteral (LInt end_i) =>
              match to_u64 start_i with
              | None => Err (bad_limit start_i)
              | Some _ =>
                  match to_u64 end_i with
                  | None => Err (bad_limit end_i)
                  | Some _ => Ok (s, e, incl)
                  end
              end
          | other => Err (EStructural (txt "bad .size range end type (" ++ show_node X other ++ txt ")"))
          end
      | other => Err (EStructural (txt "bad .size range start type (" ++ show_node X other ++ txt ")"))
      end
  | _ => Err (EStructural (txt "bad .size argument type (" ++ show_node X size_node ++ txt ")"))
  end.

(** Common prefix of the three size checks (src/validate.rs 1229-1247, 1311-1329,
    1356-1374), which are textual copies of one another up to [ty]: endpoints
    must be integer literals fitting [u64], and an empty range mismatches. *)
Definition size_bounds (ty : text) (size : range) : res (N * N * bool) :=
  let '(s, e, incl) := size in
  match s, e with
  | NLiteral (LInt a), NLiteral (LInt b) =>
      match to_u64 a with
      | None => Err (bad_limit a)
      | Some start_u =>
          match to_u64 b with
          | None => Err (bad_limit b)
          | Some end_u =>
              if N.ltb end_u start_u || (N.eqb start_u end_u && negb incl)
              then Err (mismatch (ty ++ txt " over .size limit"))
              else Ok (start_u, end_u, incl)
          end
      end
  | _, _ => Err (EStructural (txt "bad .size range endpoints for " ++ ty))
  end.

(** [1i128 << s]: shifting by 128 or more panics (debug) and the result wraps at
    the sign bit for 127; both are represented as a panic here, which is proved
    unreachable (the code only shifts by at most 120). *)
Definition shl_i128_one (s : N) : option Z :=
  if N.ltb s 127 then Some (Z.shiftl 1 (Z.of_N s)) else None.

(** [128 - v.leading_zeros()] for a [u128]: bit length. *)
Definition bit_length (v : N) : N := N.size v.

(** [u64::div_ceil(8)]. *)
Definition div_ceil8 (n : N) : N := ((n + 7) / 8)%N.

(** src/validate.rs 1228-1307: [validate_size_uint]. *)
Definition validate_size_uint (size : range) (v : value) : res unit :=
  match size_bounds (txt "uint") size with
  | Err e => Err e
  | Panic => Panic
  | Ok (start_u, end_u, incl) =>
      match v with
      | VInteger x =>
          if (x <? 0)%Z then Err (mismatch (txt ".size on negative integer"))
          else if N.eqb start_u end_u && incl then
            let n := end_u in
            if N.leb 16 n then Ok tt
            else
              match shl_i128_one (n * 8) with
              | None => Panic
              | Some limit =>
                  if (x <? limit)%Z then Ok tt
                  else Err (mismatch (txt "uint over .size limit"))
              end
          else
            let needed := if (x =? 0)%Z then 0%N else div_ceil8 (bit_length (Z.to_N x)) in
            if N.ltb needed start_u then Err (mismatch (txt "uint under .size limit"))
            else
              let ok_max := if incl then N.leb needed end_u else N.ltb needed end_u in
              if ok_max then Ok tt else Err (mismatch (txt "uint over .size limit"))
      | _ => Err (mismatch (txt "uint"))
      end
  end.

(** src/validate.rs 1310-1352: [validate_size_tstr]; [s.len()] is the UTF-8
    length. *)
Definition validate_size_tstr (size : range) (v : value) : res unit :=
  match size_bounds (txt "tstr") size with
  | Err e => Err e
  | Panic => Panic
  | Ok (min_u, max_u, incl) =>
      match v with
      | VText s =>
          let len_u := utf8_len s in
          if N.ltb len_u min_u then Err (mismatch (txt "tstr under .size limit"))
          else
            let ok_max := if incl then N.leb len_u max_u else N.ltb len_u max_u in
            if negb ok_max then Err (mismatch (txt "tstr over .size limit"))
            else Ok tt
      | _ => Err (mismatch (txt "tstr"))
      end
  end.

(** src/validate.rs 1355-1397: [validate_size_bstr]. *)
Definition validate_size_bstr (size : range) (v : value) : res unit :=
  match size_bounds (txt "bstr") size with
  | Err e => Err e
  | Panic => Panic
  | Ok (min_u, max_u, incl) =>
      match v with
      | VBytes b =>
          let len_u := N.of_nat (List.length b) in
          if N.ltb len_u min_u then Err (mismatch (txt "bstr under .size limit"))
          else
            let ok_max := if incl then N.leb len_u max_u else N.ltb len_u max_u in
            if negb ok_max then Err (mismatch (txt "bstr over .size limit"))
            else Ok tt
      | _ => Err (mismatch (txt "bstr"))
      end
  end.

(** src/validate.rs 1399-1413. *)
Definition validate_lt_uint (lt : Z) (v : value) : res unit :=
  match v with
  | VInteger x =>
      if (x <? 0)%Z then Err (mismatch (txt "uint"))
      else if (x <? lt)%Z then Ok tt
      else Err (mismatch (txt "uint over .lt limit"))
  | _ => Err (mismatch (txt "uint"))
  end.

(** src/validate.rs 1415-1429. *)
Definition validate_lt_nint (lt : Z) (v : value) : res unit :=
  match v with
  | VInteger x =>
      if (0 <=? x)%Z then Err (mismatch (txt "nint"))
      else if (x <? lt)%Z then Ok tt
      else Err (mismatch (txt "nint over .lt limit"))
  | _ => Err (mismatch (txt "nint"))
  end.

(** src/validate.rs 1431-1442. *)
Definition validate_lt_int (lt : Z) (v : value) : res unit :=
  match v with
  | VInteger x =>
      if (x <? lt)%Z then Ok tt else Err (mismatch (txt "int over .lt limit"))
  | _ => Err (mismatch (txt "int"))
  end.

(** src/validate.rs 1444-1458. *)
Definition validate_le_uint (lt : Z) (v : value) : res unit :=
  match v with
  | VInteger x =>
      if (x <? 0)%Z then Err (mismatch (txt "uint"))
      else if (x <=? lt)%Z then Ok tt
      else Err (mismatch (txt "uint over .le limit"))
  | _ => Err (mismatch (txt "uint"))
  end.

(** src/validate.rs 1460-1474 (the message says .lt in the code too). *)
Definition validate_le_nint (lt : Z) (v : value) : res unit :=
  match v with
  | VInteger x =>
      if (0 <=? x)%Z then Err (mismatch (txt "nint"))
      else if (x <=? lt)%Z then Ok tt
      else Err (mismatch (txt "nint over .lt limit"))
  | _ => Err (mismatch (txt "nint"))
  end.

(** src/validate.rs 1476-1487. *)
Definition validate_le_int (lt : Z) (v : value) : res unit :=
  match v with
  | VInteger x =>
      if (x <=? lt)%Z then Ok tt else Err (mismatch (txt "int over .le limit"))
  | _ => Err (mismatch (txt "int"))
  end.

(** src/validate.rs 1489-1503. *)
Definition validate_gt_uint (lt : Z) (v : value) : res unit :=
  match v with
  | VInteger x =>
      if (x <? 0)%Z then Err (mismatch (txt "uint"))
      else if (lt <? x)%Z then Ok tt
      else Err (mismatch (txt "uint under .gt limit"))
  | _ => Err (mismatch (txt "uint"))
  end.

(** src/validate.rs 1505-1519. *)
Definition validate_gt_nint (lt : Z) (v : value) : res unit :=
  match v with
  | VInteger x =>
      if (0 <=? x)%Z then Err (mismatch (txt "nint"))
      else if (lt <? x)%Z then Ok tt
      else Err (mismatch (txt "nint over .gt limit"))
  | _ => Err (mismatch (txt "nint"))
  end.

(** src/validate.rs 1521-1532 (the message says .ge in the code too). *)
Definition validate_gt_int (lt : Z) (v : value) : res unit :=
  match v with
  | VInteger x =>
      if (lt <? x)%Z then Ok tt else Err (mismatch (txt "int over .ge limit"))
  | _ => Err (mismatch (txt "int"))
  end.

(** src/validate.rs 1534-1548. *)
Definition validate_ge_uint (lt : Z) (v : value) : res unit :=
  match v with
  | VInteger x =>
      if (x <? 0)%Z then Err (mismatch (txt "uint"))
      else if (lt <=? x)%Z then Ok tt
      else Err (mismatch (txt "uint under .ge limit"))
  | _ => Err (mismatch (txt "uint"))
  end.

(** src/validate.rs 1550-1564. *)
Definition validate_ge_nint (lt : Z) (v : value) : res unit :=
  match v with
  | VInteger x =>
      if (0 <=? x)%Z then Err (mismatch (txt "nint"))
      else if (lt <=? x)%Z then Ok tt
      else Err (mismatch (txt "nint over .ge limit"))
  | _ => Err (mismatch (txt "nint"))
  end.

(** src/validate.rs 1566-1577. *)
Definition validate_ge_int (lt : Z) (v : value) : res unit :=
  match v with
  | VInteger x =>
      if (lt <=? x)%Z then Ok tt else Err (mismatch (txt "int over .ge limit"))
  | _ => Err (mismatch (txt "int"))
  end.

(** src/validate.rs 1215-1226: [validate_control_regexp]. *)
Definition validate_control_regexp (re : text) (v : value) : res unit :=
  match v with
  | VText t => if regex_match X re t then Ok tt else Err (mismatch (txt "regex mismatch"))
  | _ => Err (mismatch (txt "tstr"))
  end.

(** src/validate.rs 1105-1111 / 1132-1138 / 1159-1165 / 1186-1192: the limit of a
    comparison control ([op] is the operator name). *)
Definition cmp_limit (op : text) (n : node) : res Z :=
  match n with
  | NLiteral (LInt i) => Ok i
  | _ => Err (EStructural (txt "bad ." ++ op ++ txt " argument type (" ++ show_node X n ++ txt ")"))
  end.

(** src/validate.rs 1113-1127: target dispatch of [validate_control_lt]. *)
Definition lt_target (lt : Z) (v : value) (target : node) : res unit :=
  match target with
  | NPrelude PUint => validate_lt_uint lt v
  | NPrelude PNint => validate_lt_nint lt v
  | NPrelude PInt => validate_lt_int lt v
  | NPrelude PFloat => Err (EStructural (txt ".lt for float is not supported yet"))
  | _ => Err (EStructural (txt "bad .lt target type (" ++ show_node X target ++ txt ")"))
  end.

(** src/validate.rs 1140-1154. *)
Definition le_target (lt : Z) (v : value) (target : node) : res unit :=
  match target with
  | NPrelude PUint => validate_le_uint lt v
  | NPrelude PNint => validate_le_nint lt v
  | NPrelude PInt => validate_le_int lt v
  | NPrelude PFloat => Err (EStructural (txt ".le for float is not supported yet"))
  | _ => Err (EStructural (txt "bad .le target type (" ++ show_node X target ++ txt ")"))
  end.

(** src/validate.rs 1167-1181. *)
Definition gt_target (lt : Z) (v : value) (target : node) : res unit :=
  match target with
  | NPrelude PUint => validate_gt_uint lt v
  | NPrelude PNint => validate_gt_nint lt v
  | NPrelude PInt => validate_gt_int lt v
  | NPrelude PFloat => Err (EStructural (txt ".gt for float is not supported yet"))
  | _ => Err (EStructural (txt "bad .gt target type (" ++ show_node X target ++ txt ")"))
  end.

(** src/validate.rs 1194-1208. *)
Definition ge_target (lt : Z) (v : value) (target : node) : res unit :=
  match target with
  | NPrelude PUint => validate_ge_uint lt v
  | NPrelude PNint => validate_ge_nint lt v
  | NPrelude PInt => validate_ge_int lt v
  | NPrelude PFloat => Err (EStructural (txt ".ge for float is not supported yet"))
  | _ => Err (EStructural (txt "bad .ge target type (" ++ show_node X target ++ txt ")"))
  end.

(** src/validate.rs 1087-1100: target dispatch of [validate_control_size]. *)
Definition size_target (size : range) (v : value) (target : node) : res unit :=
  match target with
  | NPrelude PUint => validate_size_uint size v
  | NPrelude PTstr => validate_size_tstr size v
  | NPrelude PBstr => validate_size_bstr size v
  | _ => Err (EStructural (txt "bad .size target type (" ++ show_node X target ++ txt ")"))
  end.
End Scalar.
