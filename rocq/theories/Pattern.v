(** * Pattern: the generated token functions, src/codegen.rs:137-259, 359-450.

    Generated Rust patterns are an inductive type [rpat] with a matching semantics on structured
    values [rval].  Trusted: the reading of Rust's pattern semantics given by [rmatch] (paths resolve
    to constructors, literals compare by text, references are looked through). *)
From Verif Require Export Ast.

(** Rust values a token can be made of. The scrutinees of src/codegen.rs:169, 206. *)
Inductive rval : Type :=
| RVUnit (path : string)                              (* unit variant / struct / constant *)
| RVCtor (path : string) (args : list rval)           (* tuple variant / struct *)
| RVStruct (path : string) (fields : list (string * rval))
| RVTuple (args : list rval)
| RVLit (lit : string)
| RVOther (n : nat).                                  (* any other value *)

(** Rust patterns the macro emits. src/codegen.rs:216-259, 394-450. *)
Inductive rpat : Type :=
| RPTupleStruct (path : string) (pats : list rpat)
| RPStruct (path : string) (fields : list (string * rpat)) (dots : bool)
| RPTuple (pats : list rpat)                          (* (p1, ..., pn,) *)
| RPParen (pat : rpat)                                (* (p) *)
| RPPath (path : string)
| RPWild
| RPRest
| RPLit (lit : string)
| RPIdent (x : string).

(** Field lookup in a struct value. For patterns of src/codegen.rs:241, 430. *)
Fixpoint field_get (f : string) (fs : list (string * rval)) : option rval :=
  match fs with
  | [] => None
  | (g, v) :: fs' => if String.eqb f g then Some v else field_get f fs'
  end.

Section MatchList.
Variable m : rpat -> rval -> option (list (string * rval)).
(** Sub-patterns of a tuple or tuple struct; [..] skips to the end as far as the remaining
    sub-patterns allow. For patterns of src/codegen.rs:220, 246, 409, 439. *)
Fixpoint rmatch_list (ps : list rpat) (vs : list rval) {struct ps} : option (list (string * rval)) :=
  match ps with
  | [] => match vs with [] => Some [] | _ => None end
  | RPRest :: ps' =>
      if Nat.ltb (List.length vs) (List.length ps') then None
      else rmatch_list ps' (skipn (List.length vs - List.length ps') vs)
  | p :: ps' =>
      match vs with
      | [] => None
      | v :: vs' => match m p v, rmatch_list ps' vs' with
                    | Some b1, Some b2 => Some (b1 ++ b2)
                    | _, _ => None
                    end
      end
  end.
(** Fields of a struct pattern. For patterns of src/codegen.rs:232-241, 421-430. *)
Fixpoint rmatch_fields (fs : list (string * rpat)) (vs : list (string * rval)) {struct fs}
  : option (list (string * rval)) :=
  match fs with
  | [] => Some []
  | (f, p) :: fs' =>
      match field_get f vs with
      | None => None
      | Some v => match m p v, rmatch_fields fs' vs with
                  | Some b1, Some b2 => Some (b1 ++ b2)
                  | _, _ => None
                  end
      end
  end.
End MatchList.

(** Match a value, returning the bindings in source order. The [match] of src/codegen.rs:169-171, 206-208. *)
Fixpoint rmatch (p : rpat) (v : rval) {struct p} : option (list (string * rval)) :=
  match p, v with
  | RPWild, _ => Some []
  | RPIdent x, _ => Some [(x, v)]
  | RPParen q, _ => rmatch q v
  | RPPath c, RVUnit c' => if String.eqb c c' then Some [] else None
  | RPLit l, RVLit l' => if String.eqb l l' then Some [] else None
  | RPTupleStruct c ps, RVCtor c' vs => if String.eqb c c' then rmatch_list rmatch ps vs else None
  | RPTuple ps, RVTuple vs => rmatch_list rmatch ps vs
  | RPStruct c fs _, RVStruct c' vs => if String.eqb c c' then rmatch_fields rmatch fs vs else None
  | _, _ => None
  end.

(** src/codegen.rs:216-259 [pattern_ignore] *)
Fixpoint pattern_ignore (p : pattern) : rpat :=
  match p with
  | PatEnum path pats => RPTupleStruct path (map pattern_ignore pats)
  | PatStruct path fields dot =>
      RPStruct path (map (fun '(f, q) => (f, pattern_ignore q)) fields) dot
  | PatTuple pats => RPTuple (map pattern_ignore pats)      (* every element followed by a comma *)
  | PatPath path => RPPath path
  | PatUnderscore => RPWild
  | PatDotDot => RPRest
  | PatLit l => RPLit l
  | PatChoose _ => RPWild
  end.

(** Decimal numeral, for the identifiers [f0], [f1], ... (src/codegen.rs:397). *)
Definition digit (n : nat) : string :=
  match n with
  | 0 => "0" | 1 => "1" | 2 => "2" | 3 => "3" | 4 => "4"
  | 5 => "5" | 6 => "6" | 7 => "7" | 8 => "8" | _ => "9"
  end%string.
(** As above (src/codegen.rs:397); [fuel] only makes the recursion structural *)
Fixpoint decimal_fuel (fuel n : nat) : string :=
  match fuel with
  | 0 => ""%string
  | S f => if Nat.ltb n 10 then digit n
           else (decimal_fuel f (n / 10) ++ digit (n mod 10))%string
  end.
(** [format!("{}", n)] (src/codegen.rs:397) *)
Definition decimal (n : nat) : string := decimal_fuel (S n) n.
(** src/codegen.rs:397 [format!("f{}", n)] *)
Definition field_ident (n : nat) : string := ("f" ++ decimal n)%string.

(** The tuple pattern is emitted without a trailing comma (src/codegen.rs:439): one element makes a
    parenthesised pattern, not a one-tuple, except for [(..)] *)
Definition tuple_no_trailing_comma (ps : list rpat) : rpat :=
  match ps with
  | [RPRest] => RPTuple [RPRest]
  | [p] => RPParen p
  | _ => RPTuple ps
  end.

Section GenList.
Variable gen : pattern -> list string -> rpat * list string.
(** [pats.iter().map(|pat| generate_..(pat, idents)).collect()]. src/codegen.rs:404-407, 434-437. *)
Fixpoint gen_list (ps : list pattern) (idents : list string) : list rpat * list string :=
  match ps with
  | [] => ([], idents)
  | p :: ps' => let (r, i1) := gen p idents in
                let (rs, i2) := gen_list ps' i1 in (r :: rs, i2)
  end.
(** src/codegen.rs:413-424 *)
Fixpoint gen_fields (fs : list (string * pattern)) (idents : list string)
  : list (string * rpat) * list string :=
  match fs with
  | [] => ([], idents)
  | (f, p) :: fs' => let (r, i1) := gen p idents in
                     let (rs, i2) := gen_fields fs' i1 in ((f, r) :: rs, i2)
  end.
End GenList.

(** src/codegen.rs:394-450 [generate_pattern_syn_with_idents_] *)
Fixpoint gen_pattern (p : pattern) (idents : list string) {struct p} : rpat * list string :=
  match p with
  | PatChoose _ =>
      let x := field_ident (List.length idents) in (RPIdent x, idents ++ [x])
  | PatEnum path pats =>
      let (rs, i) := gen_list gen_pattern pats idents in (RPTupleStruct path rs, i)
  | PatStruct path fields dots =>
      let (rs, i) := gen_fields gen_pattern fields idents in (RPStruct path rs dots, i)
  | PatTuple pats =>
      let (rs, i) := gen_list gen_pattern pats idents in (tuple_no_trailing_comma rs, i)
  | PatPath path => (RPPath path, idents)
  | PatUnderscore => (RPWild, idents)
  | PatDotDot => (RPRest, idents)
  | PatLit l => (RPLit l, idents)
  end.

(** src/codegen.rs:388-392 [generate_pattern_syn_with_idents] *)
Definition generate_pattern_syn_with_idents (p : pattern) : rpat * list string := gen_pattern p [].

(** src/codegen.rs:359-385 [pattern_types], [pattern_types_] *)
Fixpoint pattern_types (p : pattern) : list ty :=
  match p with
  | PatChoose t => [t]
  | PatEnum _ pats | PatTuple pats => flat_map pattern_types pats
  | PatStruct _ fields _ => flat_map (fun '(_, q) => pattern_types q) fields
  | PatPath _ | PatUnderscore | PatDotDot | PatLit _ => []
  end.

(** Rust [match]: the first arm whose pattern matches. src/codegen.rs:169-171, 206-208. *)
Fixpoint match_arms {X} (arms : list (rpat * X)) (v : rval) : option (X * list (string * rval)) :=
  match arms with
  | [] => None
  | (p, x) :: arms' => match rmatch p v with
                       | Some b => Some (x, b)
                       | None => match_arms arms' v
                       end
  end.

(** src/codegen.rs:142-176 [token_terminal_idx_fn]: the generated function *)
Definition token_terminal_idx (cs : list conversion) (v : rval) : option nat :=
  option_map fst
    (match_arms (map (fun '(i, c) => (pattern_ignore (cv_to c), i)) (enumerate cs)) v).

(** Variable lookup; bindings of one pattern have distinct names. For src/codegen.rs:194. *)
Fixpoint var_get (x : string) (b : list (string * rval)) : option rval :=
  match b with
  | [] => None
  | (y, v) :: b' => if String.eqb x y then Some v else var_get x b'
  end.
(** The arguments [#(#pattern_idents),*] of src/codegen.rs:194 *)
Fixpoint vars_get (xs : list string) (b : list (string * rval)) : option (list rval) :=
  match xs with
  | [] => Some []
  | x :: xs' => match var_get x b, vars_get xs' b with
                | Some v, Some vs => Some (v :: vs)
                | _, _ => None
                end
  end.

(** src/codegen.rs:180-213 [token_value_fn]: the generated function; the arm for conversion [i]
    evaluates [TokenI(f0, .., fk)] *)
Definition token_value (cs : list conversion) (v : rval) : option (nat * list rval) :=
  match match_arms (map (fun '(i, c) => let (r, xs) := generate_pattern_syn_with_idents (cv_to c) in
                                        (r, (i, xs))) (enumerate cs)) v with
  | None => None
  | Some ((i, xs), b) => option_map (pair i) (vars_get xs b)
  end.
