(** * RustTypes: typing of the fragment of Rust in Rust.v

    A declarative type system for modules as Rust.v has them: which modules rustc's name resolution and type checker
    accept.  Nothing here knows about parsers.  The code in this fragment is what the [quote!] templates of src/lr_codegen.rs:101-231
    and src/codegen.rs:93-350 produce; each definition cites the lines that need it.  It follows the Rust reference, with these
    simplifications.
    - Regions, borrows, moves and mutability are not checked; lifetimes are left out of types.
    - Types of the user's are known by their text.  What the user's code promises (types of action expressions, the
      declaration of the token type, trait implementations) is a parameter, [user_types].
    - The scope around the module hides no name of the prelude ([Option], [Some], [Vec], [Clone], ..).
    - Patterns of the user's are only typed at types of the user's, tuples of them and references to them.
    - The rules are those the fragment needs: fewer coercions, fewer methods, fewer forms of exhaustive matches than in
      Rust.  A module that is well-typed here is well-typed in Rust; the converse fails for code the templates do not have. *)
From Coq Require Import NArith Ascii.
From Verif Require Export Rust.
Local Open Scope string_scope. Local Open Scope list_scope.

(** ** Types *)

(** Types of the expressions in src/lr_codegen.rs:101-231, src/codegen.rs:93-350.  Lifetimes are left out. *)
Inductive rty : Type :=
| TInt (w : width)
| TStr                                               (* &'static str *)
| TTup (ts : list rty)                               (* (t, ..); () *)
| TArr (t : rty) (n : nat)                           (* [t; n] *)
| TVec (t : rty)                                     (* Vec<t> *)
| TCon (en : string) (args : list rty)               (* Option<t>, Result<t, e>, types of the module *)
| TRef (t : rty)                                     (* &t *)
| TMut (t : rty)                                     (* &mut t *)
| TFn (args : list rty) (r : rty)                    (* fn(t, ..) -> r *)
| TIter (t : rty)                                    (* a type that implements Iterator<Item = t> *)
| TParam (x : string)                                (* a type parameter in scope *)
| TCaptured (t : ty)                                 (* a type of the user's in which a type parameter of the template is in scope by accident *)
| TUser (t : ty).                                    (* any other type of the user's *)
(** [()] (src/codegen.rs:95), [Option] (src/lr_codegen.rs:346, 376), [Result] (src/lr_codegen.rs:107, 179). *)
Definition unit_ty : rty := TTup [].
Definition option_ty (t : rty) : rty := TCon "Option" [t].
Definition result_ty (t e : rty) : rty := TCon "Result" [t; e].

(** The first declaration of a variable: innermost first (shadowing in the [let]s of src/codegen.rs:80-91). *)
Fixpoint assoc_get {X} (x : string) (l : list (string * X)) : option X :=
  match l with [] => None | (y, v) :: l' => if String.eqb x y then Some v else assoc_get x l' end.
(** Instances of generic types: [ParseError<E>], [parse_generic<R, E>] (src/lr_codegen.rs:143-144, 174-179) *)
Fixpoint subst (th : list (string * rty)) (t : rty) : rty :=
  match t with
  | TParam x => match assoc_get x th with Some u => u | None => t end
  | TTup ts => TTup (map (subst th) ts)
  | TArr t n => TArr (subst th t) n
  | TVec t => TVec (subst th t)
  | TCon en args => TCon en (map (subst th) args)
  | TRef t => TRef (subst th t)
  | TMut t => TMut (subst th t)
  | TFn args r => TFn (map (subst th) args) (subst th r)
  | TIter t => TIter (subst th t)
  | TInt _ | TStr | TCaptured _ | TUser _ => t
  end.

(** ** Type expressions *)

(** The identifiers and lifetimes in the text of a type, spliced at src/lr_codegen.rs:107, src/codegen.rs:284, 321.  (A word
    after [::] is counted too.) *)
Definition word_char (c : ascii) : bool :=
  let n := nat_of_ascii c in
  (Nat.leb 48 n && Nat.leb n 57) || (Nat.leb 65 n && Nat.leb n 90) || (Nat.leb 97 n && Nat.leb n 122) || Nat.eqb n 95 || Nat.eqb n 39 || Nat.leb 128 n.
(** Same lines. *)
Fixpoint words_acc (acc : string) (s : string) : list string :=
  match s with
  | EmptyString => [acc]
  | String c s' => if word_char c then words_acc (acc ++ String c "") s' else acc :: words_acc "" s'
  end.
(** Does the text of a type mention an identifier or lifetime? Same lines. *)
Definition mentions (x : string) (t : ty) : bool := existsb (String.eqb x) (words_acc "" t).

(** Types as the templates write them (src/lr_codegen.rs:105-107, 174-179, 346, 376; src/codegen.rs:94-96, 122, 165-167, 202-204, 294, 325) *)
Inductive tx : Type :=
| XtName (x : string) (args : list tx)               (* x<t, ..> *)
| XtText (t : ty)                                    (* a type of the user's, spliced *)
| XtStr                                              (* &'static str *)
| XtTup (ts : list tx)
| XtRef (t : tx)
| XtMut (t : tx)
| XtFn (args : list tx) (r : tx)
| XtIter (t : tx).                                   (* impl Iterator<Item = t> *)

(** Signatures: type parameters with their bounds, types of parameters, return type (src/lr_codegen.rs:105-107, 174-179;
    src/codegen.rs:94-96, 165-167, 202-204, 294, 325) *)
Record fn_sig : Type := { fs_generics : list (string * list string); fs_params : list tx; fs_ret : tx }.
(** The types in a module: type parameters of its enums, derived traits, types of the elements of statics, signatures of
    functions and of associated functions (src/lr_codegen.rs:101-231, src/codegen.rs:93-350; see EmitTypes.v) *)
Record sigs : Type := {
  sg_generics : string -> list string;
  sg_derives : string -> list string;
  sg_static : string -> option tx;
  sg_fn : string -> option fn_sig;
  sg_assoc : string -> string -> option fn_sig
}.

(** What the user's code promises about what is spliced at src/codegen.rs:94-107 (actions), 165-215 (patterns), src/lr_codegen.rs:107
    and src/codegen.rs:284, 321 (types) *)
Record user_types (A : Type) : Type := {
  ut_action : A -> list (string * rty) -> rty -> Prop;      (* an expression has a type, in these variables *)
  ut_impl : string -> ty -> Prop;                           (* a type implements a trait *)
  ut_tuple : string -> list rty -> rty -> Prop;             (* a path is a tuple variant or struct, with these fields *)
  ut_struct : string -> list (string * rty) -> rty -> Prop; (* a path is a variant or struct with named fields *)
  ut_const : string -> rty -> Prop;                         (* a path is a unit variant or constant *)
  ut_lit : string -> rty -> Prop;                           (* a literal *)
  ut_covers : list rpat -> rty -> Prop                      (* every value matches one of these patterns *)
}.
Arguments ut_action {A}. Arguments ut_impl {A}. Arguments ut_tuple {A}. Arguments ut_struct {A}. Arguments ut_const {A}.
Arguments ut_lit {A}. Arguments ut_covers {A}.

Section Typing.
Context {A : Type}.
Variable M : list (item A).
Variable S : sigs.
Variable U : user_types A.

(** Does the module declare no type of that name? (Types of the module: src/lr_codegen.rs:102, 125, 145; src/codegen.rs:343.) *)
Definition undeclared (x : string) : bool := match declared_as x (tdefs M) with [] => true | _ => false end.
(** The meaning of the name of a type: a type parameter, a type of the module, of the prelude, or of the user's (src/lr_codegen.rs:105-107, 174-179). *)
Definition named_type (params : list string) (x : string) (args : list rty) : option rty :=
  if existsb (String.eqb x) params then (match args with [] => Some (TParam x) | _ => None end)
  else match declared_as x (tdefs M) with
       | [_] => if Nat.eqb (List.length args) (List.length (sg_generics S x)) then Some (TCon x args) else None
       | _ :: _ => None
       | [] =>
           if String.eqb x "Option" then (match args with [t] => Some (option_ty t) | _ => None end)
           else if String.eqb x "Result" then (match args with [t; e] => Some (result_ty t e) | _ => None end)
           else if String.eqb x "Vec" then (match args with [t] => Some (TVec t) | _ => None end)
           else match args with
                | [] => if String.eqb x "u16" then Some (TInt U16) else if String.eqb x "u32" then Some (TInt U32)
                        else if String.eqb x "usize" then Some (TInt Usize) else Some (TUser x)
                | _ => None
                end
       end.
(** The meaning of a type given by its text, with these type parameters in scope (src/lr_codegen.rs:107, src/codegen.rs:284, 321). *)
Definition text_type (params : list string) (t : ty) : rty :=
  if existsb (String.eqb t) params then TParam t
  else if existsb (fun x => mentions x t) params then TCaptured t
  else if String.eqb t "&'static str" && undeclared "str" then TStr
  else if String.eqb t "u16" && undeclared "u16" then TInt U16
  else if String.eqb t "u32" && undeclared "u32" then TInt U32
  else if String.eqb t "usize" && undeclared "usize" then TInt Usize
  else TUser t.
(** A type expression is meaningful if its parts are (src/lr_codegen.rs:105-107, 174-179). *)
Fixpoint all_some {X} (l : list (option X)) : option (list X) :=
  match l with
  | [] => Some []
  | o :: l' => match o, all_some l' with Some x, Some xs => Some (x :: xs) | _, _ => None end
  end.
(** The meaning of a type expression, with these type parameters in scope. Same lines. *)
Fixpoint resolve (params : list string) (t : tx) : option rty :=
  match t with
  | XtName x args => match all_some (map (resolve params) args) with Some ts => named_type params x ts | None => None end
  | XtText t => Some (text_type params t)
  | XtStr => if undeclared "str" then Some TStr else None
  | XtTup ts => option_map TTup (all_some (map (resolve params) ts))
  | XtRef t => option_map TRef (resolve params t)
  | XtMut t => option_map TMut (resolve params t)
  | XtFn args r => match all_some (map (resolve params) args), resolve params r with Some ts, Some u => Some (TFn ts u) | _, _ => None end
  | XtIter t => if undeclared "Iterator" then option_map TIter (resolve params t) else None
  end.

(** Type parameters of an enum, and the types of fields of one of its instances (src/lr_codegen.rs:144-162, src/codegen.rs:342-346) *)
Definition enum_generics (en : string) : list string :=
  if undeclared en then (if String.eqb en "Option" then ["T"] else if String.eqb en "Result" then ["T"; "E"] else [])
  else sg_generics S en.
(** Same lines. *)
Definition field_type (en : string) (args : list rty) (t : ty) : rty := subst (combine (enum_generics en) args) (text_type (enum_generics en) t).

(** ** Traits *)
(** The traits the code derives or needs (src/lr_codegen.rs:105, 124, 143, 174; src/codegen.rs:342) *)
Definition std_traits : list string := ["Clone"; "Copy"; "Debug"; "PartialEq"; "Eq"].
(** [impls bounds tr t]: [t] implements [tr], if the type parameters satisfy [bounds].  Same lines. *)
Inductive impls (bounds : list (string * list string)) (tr : string) : rty -> Prop :=
| im_int : forall w, In tr std_traits -> impls bounds tr (TInt w)
| im_str : In tr std_traits -> impls bounds tr TStr
| im_fn : forall args r, In tr std_traits -> impls bounds tr (TFn args r)
| im_arr : forall t n, In tr std_traits -> impls bounds tr t -> impls bounds tr (TArr t n)
| im_prelude : forall en args, In tr std_traits -> undeclared en = true -> In en ["Option"; "Result"] -> Forall (impls bounds tr) args -> impls bounds tr (TCon en args)
| im_derived : forall en args, undeclared en = false -> In tr (sg_derives S en) -> Forall (impls bounds tr) args -> impls bounds tr (TCon en args)
| im_param : forall x trs, assoc_get x bounds = Some trs -> In tr trs -> impls bounds tr (TParam x)
| im_user : forall t, ut_impl U tr t -> impls bounds tr (TUser t).

(** ** Functions *)
(** The type after [impl], the type parameters and the result type of the function around (src/lr_codegen.rs:104-116, 174-231) *)
Record scope : Type := { sc_self : string; sc_generics : list (string * list string); sc_ret : rty }.
(** A function's type, resolved.  Same lines. *)
Definition sig_type (s : fn_sig) (ts : list rty) (r : rty) : Prop :=
  all_some (map (resolve (map fst (fs_generics s))) (fs_params s)) = Some ts /\ resolve (map fst (fs_generics s)) (fs_ret s) = Some r.
(** An instance of it: the arguments for the type parameters satisfy the bounds (the call in src/lr_codegen.rs:109-114) *)
Definition sig_instance (sc : scope) (s : fn_sig) (ts : list rty) (r : rty) : Prop :=
  exists th ps q, sig_type s ps q /\ map fst th = map fst (fs_generics s) /\
    Forall2 (fun b a => Forall (fun tr => impls (sc_generics sc) tr (snd a)) (snd b)) (fs_generics s) th /\
    ts = map (subst th) ps /\ r = subst th q.

(** ** Patterns *)
(** Default binding modes, needed for [match token] where [token] is a reference (src/codegen.rs:165-171) *)
Definition by_mode (b : bool) (t : rty) : rty := if b then TRef t else t.

(** Patterns of the user's, and patterns of several fields, where [..] stands for any number of them.  [b]: a reference
    has been looked through, so that variables are bound to references (default binding modes).
    (src/codegen.rs:169-171, 194, 206-213) *)
Inductive rpat_typed : bool -> rpat -> rty -> list (string * rty) -> Prop :=
| rt_wild : forall b t, rpat_typed b RPWild t []
| rt_ident : forall b x t, is_constant M x = false -> rpat_typed b (RPIdent x) t [(x, by_mode b t)]
| rt_paren : forall b r t vs, rpat_typed b r t vs -> rpat_typed b (RPParen r) t vs
| rt_path : forall b c t, ut_const U c t -> rpat_typed b (RPPath c) t []
| rt_lit : forall b l t, ut_lit U l t -> rpat_typed b (RPLit l) t []
| rt_tuple_struct : forall b c rs ts t vs, ut_tuple U c ts t -> rpats_typed b rs ts vs -> rpat_typed b (RPTupleStruct c rs) t vs
| rt_tuple : forall b rs ts vs, rpats_typed b rs ts vs -> rpat_typed b (RPTuple rs) (TTup ts) vs
| rt_struct : forall b c fs dots fts t vs, ut_struct U c fts t -> NoDup (map fst fs) -> (dots = false -> incl (map fst fts) (map fst fs)) ->
    rfields_typed b fs fts vs -> rpat_typed b (RPStruct c fs dots) t vs
| rt_ref : forall b r t vs, rpat_typed true r t vs -> rpat_typed b r (TRef t) vs
with rpats_typed : bool -> list rpat -> list rty -> list (string * rty) -> Prop :=
| rts_nil : forall b, rpats_typed b [] [] []
| rts_cons : forall b r rs t ts vs ws, rpat_typed b r t vs -> rpats_typed b rs ts ws -> rpats_typed b (r :: rs) (t :: ts) (vs ++ ws)
| rts_rest : forall b rs ts us vs, ~ In RPRest rs -> rpats_typed b rs us vs -> rpats_typed b (RPRest :: rs) (ts ++ us) vs
with rfields_typed : bool -> list (string * rpat) -> list (string * rty) -> list (string * rty) -> Prop :=
| rf_nil : forall b fts, rfields_typed b [] fts []
| rf_cons : forall b f r fs fts t vs ws, assoc_get f fts = Some t -> rpat_typed b r t vs -> rfields_typed b fs fts ws -> rfields_typed b ((f, r) :: fs) fts (vs ++ ws).

(** Patterns of the templates (src/lr_codegen.rs:184-222; src/codegen.rs:296, 327).  Same conventions. *)
Inductive pat_typed (self : string) : bool -> pat -> rty -> list (string * rty) -> Prop :=
| pt_wild : forall b t, pat_typed self b PWild t []
| pt_bind : forall b x t, is_constant M x = false -> pat_typed self b (PBind x) t [(x, by_mode b t)]
| pt_unit : forall b q x en args, ctor_of M self q x = Some (en, ShUnit) -> pat_typed self b (PUnit q x) (TCon en args) []
| pt_tuple : forall b q x ps en args tys vss, ctor_of M self q x = Some (en, ShTuple tys) -> List.length args = List.length (enum_generics en) ->
    pats_typed self b ps (map (field_type en args) tys) vss -> pat_typed self b (PTuple q x ps) (TCon en args) vss
| pt_fields : forall b q x en args tys, ctor_of M self q x = Some (en, ShFields tys) -> List.length args = List.length (enum_generics en) ->
    Forall (fun f => is_constant M f = false) (map fst tys) ->
    pat_typed self b (PFields q x (map fst tys)) (TCon en args) (map (fun '(f, t) => (f, by_mode b (field_type en args t))) tys)
| pt_user : forall b r t vs, rpat_typed b r t vs -> pat_typed self b (PUser r) t vs
| pt_ref : forall b p t vs, match p with PWild | PBind _ => False | _ => True end -> pat_typed self true p t vs -> pat_typed self b p (TRef t) vs
with pats_typed (self : string) : bool -> list pat -> list rty -> list (string * rty) -> Prop :=
| pts_nil : forall b, pats_typed self b [] [] []
| pts_cons : forall b p ps t ts vs ws, pat_typed self b p t vs -> pats_typed self b ps ts ws -> pats_typed self b (p :: ps) (t :: ts) (vs ++ ws).

(** Exhaustive matches.  A pattern of the user's without its variables (as src/codegen.rs:169-171, 218-260 write it): *)
Fixpoint erase (r : rpat) : rpat :=
  match r with
  | RPIdent _ => RPWild
  | RPParen r => RPParen (erase r)
  | RPTupleStruct c rs => RPTupleStruct c (map erase rs)
  | RPTuple rs => RPTuple (map erase rs)
  | RPStruct c fs dots => RPStruct c (map (fun '(f, r) => (f, erase r)) fs) dots
  | RPPath _ | RPWild | RPRest | RPLit _ => r
  end.
(** The variants of an enum (src/lr_codegen.rs:125-129, 145-162; src/codegen.rs:343-346) *)
Definition variants_of (en : string) : list (string * shape) :=
  if undeclared en then (if String.eqb en "Option" then [("None", ShUnit); ("Some", ShTuple ["T"])]
                         else if String.eqb en "Result" then [("Ok", ShTuple ["T"]); ("Err", ShTuple ["E"])] else [])
  else List.concat (declared_as en (tdefs M)).
(** Sufficient conditions for a [match] to be exhaustive (src/lr_codegen.rs:184-222; src/codegen.rs:168-172, 205-209, 295-298,
    326-329) *)
Inductive exhaustive : list pat -> rty -> Prop :=
| ex_all : forall ps t p, In p ps -> match p with PWild | PBind _ => True | _ => False end -> exhaustive ps t
| ex_ref : forall ps t, ps <> [] -> exhaustive ps t -> exhaustive ps (TRef t)  (* a reference is not an empty type *)
| ex_user : forall rs t, ut_covers U (map erase rs) (TUser t) -> exhaustive (map PUser rs) (TUser t)
| ex_enum : forall ps en args, undeclared en = false \/ In en ["Option"; "Result"] -> variants_of en <> [] ->  (* a unit struct has no variants *)
    (forall x sh, In (x, sh) (variants_of en) -> covers_variant ps en args x sh) -> exhaustive ps (TCon en args)
with covers_variant : list pat -> string -> list rty -> string -> shape -> Prop :=
| cv_unit : forall ps en args x q, In (PUnit q x) ps -> covers_variant ps en args x ShUnit
| cv_fields : forall ps en args x q fs tys, In (PFields q x fs) ps -> covers_variant ps en args x (ShFields tys)
| cv_tuple1 : forall ps qs en args x ty, (forall p, In p qs -> exists q, In (PTuple q x [p]) ps) -> exhaustive qs (field_type en args ty) ->
    covers_variant ps en args x (ShTuple [ty])
| cv_tuple : forall ps en args x q vs tys, In (PTuple q x (map PBind vs)) ps -> covers_variant ps en args x (ShTuple tys).

(** ** Expressions *)
(** Receivers of the methods of [Vec] (src/lr_codegen.rs:181-219; src/codegen.rs:80-107) *)
Definition vec_of (t u : rty) : Prop := t = TVec u \/ t = TMut (TVec u).
(** Coercions of arguments: [&&t] to [&t] (src/lr_codegen.rs:192) *)
Inductive coerces : rty -> rty -> Prop :=
| co_same : forall t, coerces t t
| co_deref : forall t, coerces (TRef (TRef t)) (TRef t).
(** Types of the tables (src/lr_codegen.rs:346, 376; src/codegen.rs:122, 485, 507) *)
Fixpoint arrays (dims : list nat) (t : rty) : rty := match dims with [] => t | d :: ds => TArr (arrays ds t) d end.
(** The variables an expression of the user's may mention (as in Rust.v; src/codegen.rs:94-107) *)
Definition visible_types (G : list (string * rty)) : list (string * rty) := filter (fun '(x, _) => negb (String.eqb x "value_stack")) G.

Section Body.
Variable sc : scope.
(** [typed l G e t]: [e] has type [t] where the variables have types [G] (innermost first); [l]: inside a loop
    (src/lr_codegen.rs:101-231, src/codegen.rs:80-350). *)
Inductive typed : bool -> list (string * rty) -> expr A -> rty -> Prop :=
| t_var : forall l G x t, assoc_get x G = Some t -> typed l G (XId x) t
| t_static : forall l G x d e u t, assoc_get x G = None -> declared_as x (vdefs M) = [DStatic d e] -> sg_static S x = Some u -> resolve [] u = Some t ->
    typed l G (XId x) (arrays d t)
| t_fn : forall l G x f s ts r, assoc_get x G = None -> declared_as x (vdefs M) = [DFn f] -> sg_fn S x = Some s -> sig_instance sc s ts r ->
    typed l G (XId x) (TFn ts r)
| t_assoc : forall l G q x f s ts r, q <> "" -> q <> "::std::mem" -> declared_as x (assoc_fns M (self_or (sc_self sc) q)) = [f] ->
    (exists vs, declared_as (self_or (sc_self sc) q) (tdefs M) = [vs] /\ declared_as x vs = []) ->
    sg_assoc S (self_or (sc_self sc) q) x = Some s -> sig_instance sc s ts r ->
    typed l G (XPath q x) (TFn ts r)
| t_unit_ctor : forall l G q x e en args, (q = "" /\ e = XId x /\ assoc_get x G = None) \/ (q <> "" /\ e = XPath q x) ->
    ctor_of M (sc_self sc) q x = Some (en, ShUnit) -> List.length args = List.length (enum_generics en) -> typed l G e (TCon en args)
| t_tuple_ctor : forall l G q x e en args tys, (q = "" /\ e = XId x /\ assoc_get x G = None) \/ (q <> "" /\ e = XPath q x) ->
    ctor_of M (sc_self sc) q x = Some (en, ShTuple tys) -> List.length args = List.length (enum_generics en) ->
    typed l G e (TFn (map (field_type en args) tys) (TCon en args))
| t_replace : forall l G t, typed l G (XPath "::std::mem" "replace") (TFn [TMut t; t] t)
| t_int : forall l G w n, fits w n = true -> typed l G (XInt w n) (TInt w)
| t_str : forall l G s, typed l G (XStr s) TStr
| t_user : forall l G a t, ut_action U a (visible_types G) t -> typed l G (XUser a) t
| t_unit : forall l G, typed l G XUnitE unit_ty
| t_tuple : forall l G es ts, Forall2 (typed l G) es ts -> List.length es <> 1 -> typed l G (XTuple es) (TTup ts)
| t_array : forall l G es t, Forall (fun e => typed l G e t) es -> typed l G (XArray es) (TArr t (List.length es))
| t_vec : forall l G es t, Forall (fun e => typed l G e t) es -> typed l G (XVec es) (TVec t)
| t_struct : forall l G q x fs en args tys, ctor_of M (sc_self sc) q x = Some (en, ShFields tys) -> map fst fs = map fst tys ->
    List.length args = List.length (enum_generics en) ->
    Forall2 (typed l G) (map snd fs) (map (fun '(_, t) => field_type en args t) tys) -> typed l G (XStruct q x fs) (TCon en args)
| t_call : forall l G f es ts us r, typed l G f (TFn ts r) -> Forall2 (typed l G) es us -> Forall2 coerces us ts -> typed l G (XCall f es) r
| t_push : forall l G r tr e t, typed l G r tr -> vec_of tr t -> typed l G e t -> typed l G (XMethod r "push" [e]) unit_ty
| t_pop : forall l G r tr t, typed l G r tr -> vec_of tr t -> typed l G (XMethod r "pop" []) (option_ty t)
| t_last : forall l G r tr t, typed l G r tr -> vec_of tr t -> typed l G (XMethod r "last" []) (option_ty (TRef t))
| t_unwrap : forall l G r t, typed l G r (option_ty t) -> typed l G (XMethod r "unwrap" []) t
| t_next : forall l G r t, typed l G r (TIter t) -> typed l G (XMethod r "next" []) (option_ty t)
| t_clone : forall l G r t, typed l G r (TRef t) -> impls (sc_generics sc) "Clone" t -> typed l G (XMethod r "clone" []) t
| t_method : forall l G r en args m f s t es us ts q, typed l G r (TCon en args) -> declared_as m (assoc_fns M en) = [f] -> sg_assoc S en m = Some s ->
    sig_instance sc s (t :: ts) q -> t = TCon en args -> Forall2 (typed l G) es us -> Forall2 coerces us ts -> typed l G (XMethod r m es) q
| t_index : forall l G a i t n, typed l G a (TArr t n) -> typed l G i (TInt Usize) -> impls (sc_generics sc) "Copy" t -> typed l G (XIndex a i) t
| t_ref : forall l G e t, typed l G e t -> typed l G (XRef e) (TRef t)
| t_mut : forall l G x t, assoc_get x G = Some t -> typed l G (XMutRef x) (TMut t)
| t_deref : forall l G e t, typed l G e (TRef t) -> impls (sc_generics sc) "Copy" t -> typed l G (XDeref e) t
| t_as : forall l G e w, typed l G e (TInt w) -> typed l G (XAsUsize e) (TInt Usize)
| t_let : forall l G x e b t u, is_constant M x = false -> typed l G e t -> typed l ((x, t) :: G) b u -> typed l G (XLet x e b) u
| t_seq : forall l G e b t u, typed l G e t -> typed l G b u -> typed l G (XSeq e b) u
| t_match : forall l G e arms t u, typed l G e t ->
    Forall (fun a => exists vs, pat_typed (sc_self sc) false (fst a) t vs /\ NoDup (map fst vs) /\ typed l (rev vs ++ G) (snd a) u) arms ->
    exhaustive (map fst arms) t -> typed l G (XMatch e arms) u
| t_if_let : forall l G p e b t vs, typed l G e t -> pat_typed (sc_self sc) false p t vs -> NoDup (map fst vs) -> typed l (rev vs ++ G) b unit_ty ->
    typed l G (XIfLet p e b) unit_ty
| t_loop : forall l G b, typed true G b unit_ty -> typed l G (XLoop b) unit_ty
| t_for : forall l G n b w t, typed l G n (TInt w) -> typed true G b t -> typed l G (XFor n b) unit_ty
| t_break : forall G t, typed true G XBreak t
| t_return : forall l G e t, typed l G e (sc_ret sc) -> typed l G (XReturn e) t
| t_panic : forall l G s t, typed l G (XPanic s) t
| t_unreachable : forall l G t, typed l G XUnreachable t.
End Body.

(** ** Items *)

(** Names of traits in bounds mean the traits (src/lr_codegen.rs:105, 174). *)
Definition bounds_ok (gs : list (string * list string)) : Prop := NoDup (map fst gs) /\ forall x trs tr, In (x, trs) gs -> In tr trs -> undeclared tr = true.
(** Functions (src/lr_codegen.rs:105-115, 174-231; src/codegen.rs:94-107, 165-172, 202-209, 294-298, 325-329) *)
Definition fn_ok (self : string) (s : fn_sig) (f : fn_def A) : Prop :=
  bounds_ok (fs_generics s) /\
  exists ts r, sig_type s ts r /\ List.length ts = List.length (fd_params f) /\
    NoDup (fd_params f) /\ Forall (fun x => is_constant M x = false) (fd_params f) /\
    typed {| sc_self := self; sc_generics := fs_generics s; sc_ret := r |} false (rev (combine (fd_params f) ts)) (fd_body f) r.
(** The texts of the types in an enum (src/lr_codegen.rs:144-162, src/codegen.rs:342-346) *)
Definition shape_types (sh : shape) : list ty := match sh with ShUnit => [] | ShTuple tys => tys | ShFields fs => map snd fs end.
(** Enums. Same lines. *)
Definition enum_ok (nm : string) (lifetimes : list string) (vs : list (string * shape)) : Prop :=
  NoDup (map fst vs) /\ NoDup lifetimes /\ NoDup (sg_generics S nm) /\
  (forall x fs, In (x, ShFields fs) vs -> NoDup (map fst fs)) /\
  (* parameters are used *)
  (forall a, In a lifetimes -> exists x sh t, In (x, sh) vs /\ In t (shape_types sh) /\ mentions ("'" ++ a) t = true) /\
  (forall p, In p (sg_generics S nm) -> exists x sh t, In (x, sh) vs /\ In t (shape_types sh) /\ mentions p t = true) /\
  (* derived traits *)
  (forall tr x sh t, In tr (sg_derives S nm) -> In (x, sh) vs -> In t (shape_types sh) ->
     impls (map (fun p => (p, [tr])) (sg_generics S nm)) tr (text_type (sg_generics S nm) t)).
(** Items of the module (src/codegen.rs:36-60, src/lr_codegen.rs:101-231) *)
Definition item_ok (i : item A) : Prop :=
  match i with
  | IEnum nm ls vs => enum_ok nm ls vs
  | IStatic nm d e => exists u t, sg_static S nm = Some u /\ resolve [] u = Some t /\
      typed {| sc_self := ""; sc_generics := []; sc_ret := unit_ty |} false [] e (arrays d t)
  | IFn nm f => exists s, sg_fn S nm = Some s /\ fn_ok "" s f
  | IStruct _ => True
  | IImpl nm fs => (exists vs, declared_as nm (tdefs M) = [vs]) /\ NoDup (map fst fs) /\
      Forall (fun xf => exists s, sg_assoc S nm (fst xf) = Some s /\ fn_ok nm s (snd xf)) fs
  end.
(** The module. Same lines. *)
Definition module_ok : Prop := NoDup (map fst (vdefs M)) /\ NoDup (map fst (tdefs M)) /\ Forall item_ok M.
End Typing.
