(** * Rust: the fragment of Rust that the macro emits

    Syntax of the items, statements, expressions and patterns in the [quote!] templates of src/lr_codegen.rs and
    src/codegen.rs, and an interpreter for it.  Nothing here knows about grammars or parse tables: identifiers are
    resolved by name among the items of the module, values are Rust values.  Emit.v has the templates.

    The interpreter follows the Rust reference, with these simplifications.
    - Types are not checked.  Where an expression has no meaning, because a name does not resolve or resolves to
      several items, or because values do not fit an operation, the result is [OIll]; rustc rejects such programs.
    - [&e] is a snapshot of the value of [e] (a value cannot change while it is borrowed), and a call with an argument
      [&mut x] copies the new value of the parameter back into [x] when the function returns (a mutable borrow is
      exclusive).  Moving is copying.  Destructors do nothing.
    - Integers are unbounded; literals must fit the type they are suffixed with; [as usize] keeps the number.
    - Statics are evaluated where they are mentioned.
    - The local variables an expression of the user's may mention are those bound in the function, except [value_stack]. *)
From Coq Require Import NArith.
From Verif Require Export Effects Names.
Local Open Scope string_scope. Local Open Scope list_scope.

(** ** Syntax *)

(** Integer suffixes of interpolated [u16], [u32] and [usize] values. src/lr_codegen.rs:112-113, 189, 313, 330-334, 365. *)
Inductive width : Type := U16 | U32 | Usize.

(** Patterns of src/lr_codegen.rs:189-219 and src/codegen.rs:171, 193, 295-296, 326-327.  [q] is the first of two
    segments of a path, or empty.  [PUser] is a pattern generated from one of the user's. *)
Inductive pat : Type :=
| PWild
| PBind (x : string)
| PUnit (q x : string)                               (* q::x *)
| PTuple (q x : string) (ps : list pat)              (* q::x(p, ..) *)
| PFields (q x : string) (fs : list string)          (* q::x { f, .. } *)
| PUser (r : rpat).

(** Expressions and statements of src/lr_codegen.rs:101-231, 308-380 and src/codegen.rs:55-100, 164-173, 193-210, 293-331. *)
Inductive expr (A : Type) : Type :=
| XId (x : string)                                   (* x *)
| XPath (q x : string)                               (* q::x *)
| XInt (w : width) (n : nat)                         (* 3u32 *)
| XStr (s : string)                                  (* "s" *)
| XUser (a : A)                                      (* an action expression *)
| XUnitE                                             (* () *)
| XTuple (es : list (expr A))                        (* (e, ..), not one element *)
| XArray (es : list (expr A))                        (* [e, ..] *)
| XVec (es : list (expr A))                          (* vec![e, ..] *)
| XStruct (q x : string) (fs : list (string * expr A)) (* q::x { f: e, .. } *)
| XCall (f : expr A) (args : list (expr A))          (* f(e, ..) *)
| XMethod (r : expr A) (m : string) (args : list (expr A)) (* r.m(e, ..) *)
| XIndex (a i : expr A)                              (* a[i] *)
| XRef (e : expr A)                                  (* &e *)
| XMutRef (x : string)                               (* &mut x *)
| XDeref (e : expr A)                                (* *e *)
| XAsUsize (e : expr A)                              (* e as usize *)
| XLet (x : string) (e body : expr A)                (* let x = e; body *)
| XSeq (e body : expr A)                             (* e; body *)
| XMatch (e : expr A) (arms : list (pat * expr A))   (* match e { p => e, .. } *)
| XIfLet (p : pat) (e body : expr A)                 (* if let p = e { body } *)
| XLoop (body : expr A)                              (* loop { body } *)
| XFor (n body : expr A)                             (* for _ in 0 .. n { body } *)
| XBreak                                             (* break *)
| XReturn (e : expr A)                               (* return e *)
| XPanic (msg : string)                              (* panic!(msg) *)
| XUnreachable.                                      (* unreachable!(..) *)
Arguments XId {A}. Arguments XPath {A}. Arguments XInt {A}. Arguments XStr {A}. Arguments XUser {A}. Arguments XUnitE {A}.
Arguments XTuple {A}. Arguments XArray {A}. Arguments XVec {A}. Arguments XStruct {A}. Arguments XCall {A}. Arguments XMethod {A}.
Arguments XIndex {A}. Arguments XRef {A}. Arguments XMutRef {A}. Arguments XDeref {A}. Arguments XAsUsize {A}. Arguments XLet {A}.
Arguments XSeq {A}. Arguments XMatch {A}. Arguments XIfLet {A}. Arguments XLoop {A}. Arguments XFor {A}. Arguments XBreak {A}.
Arguments XReturn {A}. Arguments XPanic {A}. Arguments XUnreachable {A}.

(** Shapes of enum variants. src/lr_codegen.rs:126-135, 145-150; src/codegen.rs:284, 321. *)
Inductive shape : Type := ShUnit | ShTuple (tys : list ty) | ShFields (fs : list (string * ty)).

(** A function: parameters and body. src/lr_codegen.rs:105-115, 174-228; src/codegen.rs:93-100, 164-173, 201-210, 293-331. *)
Record fn_def (A : Type) : Type := { fd_params : list string; fd_body : expr A }.
Arguments fd_params {A}. Arguments fd_body {A}.

(** Items. [dims] are the lengths in an array type, outermost first. src/lr_codegen.rs:101-231, 344-350, 374-380;
    src/codegen.rs:93-100, 121-126, 164-173, 201-210, 341-350, 484-488, 506-510. *)
Inductive item (A : Type) : Type :=
| IEnum (nm : string) (lifetimes : list string) (variants : list (string * shape))
| IStatic (nm : string) (dims : list nat) (e : expr A)
| IFn (nm : string) (f : fn_def A)
| IStruct (nm : string)                              (* unit struct *)
| IImpl (nm : string) (fns : list (string * fn_def A)).
Arguments IEnum {A}. Arguments IStatic {A}. Arguments IFn {A}. Arguments IStruct {A}. Arguments IImpl {A}.

(** ** Names *)
Section Names.
Context {A : Type}.

(** What a name means in the value namespace *)
Inductive vdef : Type := DStatic (dims : list nat) (e : expr A) | DFn (f : fn_def A) | DStruct.
(** Items of a module in the value namespace.  Declared at the lines of [item]: src/lr_codegen.rs:101-231. *)
Definition vdefs (M : list (item A)) : list (string * vdef) :=
  flat_map (fun i => match i with
                     | IStatic x d e => [(x, DStatic d e)]
                     | IFn x f => [(x, DFn f)]
                     | IStruct x => [(x, DStruct)]
                     | _ => []
                     end) M.
(** Items of a module in the type namespace, with the variants of enums.  src/lr_codegen.rs:101-231. *)
Definition tdefs (M : list (item A)) : list (string * list (string * shape)) :=
  flat_map (fun i => match i with
                     | IEnum x _ vs => [(x, vs)]
                     | IStruct x => [(x, [])]
                     | _ => []
                     end) M.
(** Associated functions of a type. src/lr_codegen.rs:104-116, src/codegen.rs:347-349. *)
Definition assoc_fns (M : list (item A)) (q : string) : list (string * fn_def A) :=
  flat_map (fun i => match i with IImpl x fs => if String.eqb x q then fs else [] | _ => [] end) M.
(** [Self] (src/codegen.rs:296, 327) *)
Definition self_or (self q : string) : string := if String.eqb q "Self" then self else q.

(** The constructors of the prelude that the templates mention. src/lr_codegen.rs:189-227. *)
Definition prelude_ctor (x : string) : option (string * shape) :=
  if String.eqb x "Some" then Some ("Option", ShTuple ["T"])
  else if String.eqb x "None" then Some ("Option", ShUnit)
  else if String.eqb x "Ok" then Some ("Result", ShTuple ["T"])
  else if String.eqb x "Err" then Some ("Result", ShTuple ["E"])
  else None.
(** The enum and the shape of a constructor; a single segment means an item of the module before the prelude.
    src/lr_codegen.rs:189-227, src/codegen.rs:98, 194, 296, 327. *)
Definition ctor_of (M : list (item A)) (self q x : string) : option (string * shape) :=
  if String.eqb q "" then match declared_as x (vdefs M) with [] => prelude_ctor x | _ => None end
  else match declared_as (self_or self q) (tdefs M) with
       | [vs] => match declared_as x vs, declared_as x (assoc_fns M (self_or self q)) with
                 | [sh], [] => Some (self_or self q, sh)
                 | _, _ => None
                 end
       | _ => None
       end.
(** An identifier pattern with the name of a static, a unit struct or a unit variant is not a binding (the Rust
    reference, identifier patterns; error E0530 or a pattern that compares).  For the bindings of src/lr_codegen.rs:105-227
    and src/codegen.rs:76, 94, 165, 194, 202, 296, 327. *)
Definition is_constant (M : list (item A)) (x : string) : bool :=
  match declared_as x (vdefs M) with
  | [] => String.eqb x "None"
  | ds => existsb (fun d => match d with DFn _ => false | _ => true end) ds
  end.
End Names.
Arguments vdef : clear implicits.

(** ** Bindings

    The identifiers a module binds with [let], patterns and parameters: src/lr_codegen.rs:105-227, src/codegen.rs:76, 94,
    165, 194, 202, 296, 327. *)
Fixpoint rpat_binds (r : rpat) : list string :=
  match r with
  | RPIdent x => [x]
  | RPTupleStruct _ rs | RPTuple rs => flat_map rpat_binds rs
  | RPStruct _ fs _ => flat_map (fun '(_, r) => rpat_binds r) fs
  | RPParen r => rpat_binds r
  | _ => []
  end.
(** src/lr_codegen.rs:189-219 *)
Fixpoint pat_binds (p : pat) : list string :=
  match p with
  | PBind x => [x]
  | PTuple _ _ ps => flat_map pat_binds ps
  | PFields _ _ fs => fs
  | PUser r => rpat_binds r
  | PWild | PUnit _ _ => []
  end.
(** src/lr_codegen.rs:105-227 *)
Fixpoint expr_binds {A} (e : expr A) : list string :=
  match e with
  | XTuple es | XArray es | XVec es => flat_map expr_binds es
  | XStruct _ _ fs => flat_map (fun '(_, e) => expr_binds e) fs
  | XCall f es => expr_binds f ++ flat_map expr_binds es
  | XMethod r _ es => expr_binds r ++ flat_map expr_binds es
  | XIndex a b | XSeq a b | XFor a b => expr_binds a ++ expr_binds b
  | XRef e | XDeref e | XAsUsize e | XLoop e | XReturn e => expr_binds e
  | XLet x e b => x :: expr_binds e ++ expr_binds b
  | XMatch e arms => expr_binds e ++ flat_map (fun '(p, b) => pat_binds p ++ expr_binds b) arms
  | XIfLet p e b => pat_binds p ++ expr_binds e ++ expr_binds b
  | XId _ | XPath _ _ | XInt _ _ | XStr _ | XUser _ | XUnitE | XMutRef _ | XBreak | XPanic _ | XUnreachable => []
  end.
(** src/lr_codegen.rs:105-115, 174-228 *)
Definition fn_binds {A} (f : fn_def A) : list string := fd_params f ++ expr_binds (fd_body f).
(** src/lr_codegen.rs:124-231 *)
Definition module_binds {A} (M : list (item A)) : list string :=
  flat_map (fun i => match i with
                     | IStatic _ _ e => expr_binds e
                     | IFn _ f => fn_binds f
                     | IImpl _ fs => flat_map (fun '(_, f) => fn_binds f) fs
                     | IEnum _ _ _ | IStruct _ => []
                     end) M.

(** The user's expressions in an expression, in order. src/codegen.rs:98. *)
Fixpoint expr_users {A} (e : expr A) : list A :=
  match e with
  | XUser a => [a]
  | XTuple es | XArray es | XVec es => flat_map expr_users es
  | XStruct _ _ fs => flat_map (fun '(_, e) => expr_users e) fs
  | XCall f es => expr_users f ++ flat_map expr_users es
  | XMethod r _ es => expr_users r ++ flat_map expr_users es
  | XIndex a b | XSeq a b | XFor a b => expr_users a ++ expr_users b
  | XRef e | XDeref e | XAsUsize e | XLoop e | XReturn e => expr_users e
  | XLet _ e b => expr_users e ++ expr_users b
  | XMatch e arms => expr_users e ++ flat_map (fun '(_, b) => expr_users b) arms
  | XIfLet _ e b => expr_users e ++ expr_users b
  | XId _ | XPath _ _ | XInt _ _ | XStr _ | XUnitE | XMutRef _ | XBreak | XPanic _ | XUnreachable => []
  end.
(** src/lr_codegen.rs:124-231 *)
Definition module_users {A} (M : list (item A)) : list A :=
  flat_map (fun i => match i with
                     | IStatic _ _ e => expr_users e
                     | IFn _ f => expr_users (fd_body f)
                     | IImpl _ fs => flat_map (fun '(_, f) => expr_users (fd_body f)) fs
                     | IEnum _ _ _ | IStruct _ => []
                     end) M.

(** ** Values *)
Section Values.
Context {A E V St : Type}.

Inductive val : Type :=
| VInt (n : nat)
| VStr (s : string)
| VTup (l : list val)
| VArr (l : list val)
| VVec (l : list val)
| VCon (en x : string) (args : list val)             (* en::x, en::x(..) *)
| VRec (en x : string) (fs : list (string * val))    (* en::x { .. } *)
| VRef (v : val)                                     (* a shared reference *)
| VMut (x : string)                                  (* a mutable reference to a local variable, as an argument *)
| VFn (q x : string)                                 (* a function *)
| VCtor (q x : string)                               (* a constructor as a function *)
| VReplace                                           (* ::std::mem::replace *)
| VTok (t : rval)                                    (* a token of the user's *)
| VErr (e : E)                                       (* a lexer error *)
| VUser (v : V)                                      (* another value of a type of the user's *)
| VIter.                                             (* the iterator *)

(** The user's code: action expressions, parts of tokens as values, [next()] and [clone()] of an error ([None]: panic).
    The splices of src/codegen.rs:98; src/lr_codegen.rs:184, 190, 203. *)
Record user : Type := {
  us_action : A -> list (string * val) -> St -> completion V * St;
  us_part : rval -> V;
  us_next : St -> option (option (rval + E)) * St;
  us_clone : E -> St -> option E * St
}.

(** Panics. src/lr_codegen.rs:187, 193, 211-215, 225, 227; src/codegen.rs:76, 297, 328; or in the user's code. *)
Inductive panic_kind : Type := KMessage (s : string) | KUnwrap | KIndex | KUnreachable | KNoArm | KUser.

(** Local variables, innermost first, and the state of the user's code *)
Record rstate : Type := { rs_locals : list (string * val); rs_user : St }.

(** How the evaluation of an expression ends *)
Inductive out : Type :=
| OVal (v : val) (s : rstate)
| OReturn (v : val) (s : rstate)
| OBreak (s : rstate)
| OPanic (k : panic_kind) (u : St)
| OIll                                               (* the program does not compile *)
| OFuel.                                             (* more iterations or calls than allowed *)
(** How a function call ends; [params] are the final values of the parameters *)
Inductive cout : Type := CVal (v : val) (params : list val) (u : St) | CPanic (k : panic_kind) (u : St) | CIll | CFuel.

(** Local variables (the locals of src/lr_codegen.rs:181-227, src/codegen.rs:76) *)
Fixpoint lget (x : string) (l : list (string * val)) : option val :=
  match l with [] => None | (y, v) :: l' => if String.eqb x y then Some v else lget x l' end.
(** Assignment to the innermost variable of that name (pushes, pops and [replace]: src/lr_codegen.rs:202-226) *)
Fixpoint lset (x : string) (v : val) (l : list (string * val)) : list (string * val) :=
  match l with [] => [] | (y, w) :: l' => if String.eqb x y then (y, v) :: l' else (y, w) :: lset x v l' end.
(** The state with other local variables, or another state of the user's code (src/lr_codegen.rs:181-227) *)
Definition with_locals (s : rstate) (l : list (string * val)) : rstate := {| rs_locals := l; rs_user := rs_user s |}.
Definition with_user (s : rstate) (u : St) : rstate := {| rs_locals := rs_locals s; rs_user := u |}.

(** The end of a block: variables declared in it go out of scope. The blocks of src/lr_codegen.rs:186-221. *)
Definition leave (k : nat) (o : out) : out :=
  match o with
  | OVal v s => OVal v (with_locals s (skipn k (rs_locals s)))
  | OBreak s => OBreak (with_locals s (skipn k (rs_locals s)))
  | _ => o
  end.
(** What comes next, unless the expression ended otherwise: [return], [break] and panics of src/lr_codegen.rs:187-227 *)
Definition bind (o : out) (k : val -> rstate -> out) : out := match o with OVal v s => k v s | _ => o end.
(** [()] and [Option]s, the results of [push], [pop], [last] and [next]: src/lr_codegen.rs:184-226 *)
Definition unit_val : val := VTup [].
Definition some_val (o : option val) : val := match o with Some v => VCon "Option" "Some" [v] | None => VCon "Option" "None" [] end.

(** Literals fit their suffix. src/lr_codegen.rs:112-113, 189, 313-334, 365. *)
Definition fits (w : width) (n : nat) : bool :=
  match w with U16 => N.ltb (N.of_nat n) (2 ^ 16) | U32 => N.ltb (N.of_nat n) (2 ^ 32) | Usize => true end.

(** A value of type [[[T; d2]; d1]]. src/lr_codegen.rs:345, 375; src/codegen.rs:123, 485, 507. *)
Fixpoint has_dims (dims : list nat) (v : val) : bool :=
  match dims with
  | [] => true
  | d :: dims' => match v with VArr l => Nat.eqb (List.length l) d && forallb (has_dims dims') l | _ => false end
  end.

Variable M : list (item A).

(** Meaning of a path as an expression, outside of local variables. src/lr_codegen.rs:110-111, 191, 193-227, 317, 337;
    src/codegen.rs:98, 124, 194. *)
Definition path_val (static : list nat -> expr A -> option val) (self q x : string) : option val :=
  let ctor := match ctor_of M self q x with
              | Some (en, ShUnit) => Some (VCon en x [])
              | Some (en, ShTuple _) => Some (VCtor (if String.eqb q "" then "" else en) x)
              | _ => None
              end in
  if String.eqb q "::std::mem" then (if String.eqb x "replace" then Some VReplace else None)
  else if String.eqb q "" then
    match declared_as x (vdefs M) with
    | [] => ctor
    | [DStatic d e] => static d e
    | [DFn _] => Some (VFn "" x)
    | _ => None
    end
  else match declared_as x (assoc_fns M (self_or self q)) with
       | [] => ctor
       | [_] => match declared_as (self_or self q) (tdefs M) with
                | [vs] => match declared_as x vs with [] => Some (VFn (self_or self q) x) | _ => None end
                | _ => None
                end
       | _ => None
       end.

(** Making a value with a constructor. src/lr_codegen.rs:190, 196, 227, 313-334; src/codegen.rs:98, 194. *)
Definition construct (self q x : string) (args : list val) : option val :=
  match ctor_of M self q x with
  | Some (en, ShTuple tys) => if Nat.eqb (List.length args) (List.length tys) then Some (VCon en x args) else None
  | _ => None
  end.
Definition construct_fields (self q x : string) (fs : list (string * val)) : option val :=
  match ctor_of M self q x with
  | Some (en, ShFields tys) => if list_eq_dec string_dec (map fst fs) (map fst tys) then Some (VRec en x fs) else None
  | _ => None
  end.

(** Lists of initialisers. src/lr_codegen.rs:342-350, 369-380; src/codegen.rs:124, 486, 508. *)
Section ConstList.
Variable cev : expr A -> option val.
Fixpoint const_list (es : list (expr A)) : option (list val) :=
  match es with
  | [] => Some []
  | e :: es' => match cev e, const_list es' with Some v, Some vs => Some (v :: vs) | _, _ => None end
  end.
Fixpoint const_fields (fs : list (string * expr A)) : option (list (string * val)) :=
  match fs with
  | [] => Some []
  | (f, e) :: fs' => match cev e, const_fields fs' with Some v, Some vs => Some ((f, v) :: vs) | _, _ => None end
  end.
End ConstList.

(** Initialisers of statics. src/lr_codegen.rs:310-350, 362-380; src/codegen.rs:123-125, 484-488, 506-510. *)
Fixpoint const_eval (e : expr A) : option val :=
  match e with
  | XInt w n => if fits w n then Some (VInt n) else None
  | XStr s => Some (VStr s)
  | XArray es => option_map VArr (const_list const_eval es)
  | XId x => path_val (fun _ _ => None) "" "" x
  | XPath q x => path_val (fun _ _ => None) "" q x
  | XStruct q x fs => match const_fields const_eval fs with Some vs => construct_fields "" q x vs | None => None end
  | XCall f args =>
      match const_eval f, const_list const_eval args with
      | Some (VCtor q x), Some vs => construct "" q x vs
      | _, _ => None
      end
  | _ => None
  end.
(** A static of array type, evaluated where it is mentioned. src/lr_codegen.rs:193-195, 209, 214, 225. *)
Definition static_val (d : list nat) (e : expr A) : option val :=
  match const_eval e with Some v => if has_dims d v then Some v else None | None => None end.

(** ** Patterns *)
Variable U : user.

(** The result of matching: the pattern has no meaning, it does not match, or it matches with these bindings *)
Inductive matched : Type := MIll | MNo | MYes (b : list (string * val)).
(** Default binding modes: a pattern looks through a reference, and then binds references (the Rust reference).
    src/lr_codegen.rs:188-192, src/codegen.rs:169. *)
Fixpoint strip (v : val) : bool * val := match v with VRef w => (true, snd (strip w)) | _ => (false, v) end.
Definition reref (sh : bool) (v : val) : val := if sh then VRef v else v.

(** Patterns of a constructor against its arguments. src/lr_codegen.rs:190-219, src/codegen.rs:296, 327. *)
Section MatchPats.
Variable m : pat -> val -> matched.
Fixpoint match_pats (ps : list pat) (vs : list val) : matched :=
  match ps, vs with
  | [], [] => MYes []
  | p :: ps', v :: vs' => match m p v, match_pats ps' vs' with
                          | MYes b1, MYes b2 => MYes (b1 ++ b2)
                          | MIll, _ | _, MIll => MIll
                          | _, _ => MNo
                          end
  | _, _ => MIll
  end.
End MatchPats.
(** Bindings, unless one is called like a constant. src/lr_codegen.rs:190-219, src/codegen.rs:194, 296, 327. *)
Definition bindings (b : list (string * val)) : matched := if existsb (fun '(x, _) => is_constant M x) b then MIll else MYes b.

(** For the [match]es of src/lr_codegen.rs:188-220 and src/codegen.rs:169, 206, 295, 326 *)
Fixpoint match_pat (self : string) (p : pat) (v : val) {struct p} : matched :=
  match p with
  | PWild => MYes []
  | PBind x => bindings [(x, v)]
  | PUnit q x =>
      match ctor_of M self q x, snd (strip v) with
      | Some (en, ShUnit), VCon en' x' _ | Some (en, ShUnit), VRec en' x' _ =>
          if String.eqb en en' then (if String.eqb x x' then MYes [] else MNo) else MIll
      | _, _ => MIll
      end
  | PTuple q x ps =>
      match ctor_of M self q x, snd (strip v) with
      | Some (en, ShTuple tys), VCon en' x' args =>
          if String.eqb en en' && Nat.eqb (List.length ps) (List.length tys)
          then (if String.eqb x x' then match_pats (match_pat self) ps (map (reref (fst (strip v))) args) else MNo) else MIll
      | Some (en, ShTuple tys), VRec en' x' _ => if String.eqb en en' && negb (String.eqb x x') then MNo else MIll
      | _, _ => MIll
      end
  | PFields q x fs =>
      match ctor_of M self q x, snd (strip v) with
      | Some (en, ShFields tys), VRec en' x' vs =>
          if String.eqb en en'
          then (if String.eqb x x'
                then (if list_eq_dec string_dec fs (map fst vs)
                      then bindings (map (fun '(f, w) => (f, reref (fst (strip v)) w)) vs) else MIll)
                else MNo)
          else MIll
      | Some (en, ShFields tys), VCon en' x' _ => if String.eqb en en' && negb (String.eqb x x') then MNo else MIll
      | _, _ => MIll
      end
  | PUser r =>
      match snd (strip v) with
      | VTok t => match rmatch r t with
                  | Some b => bindings (map (fun '(x, w) => (x, reref (fst (strip v)) (VUser (us_part U w)))) b)
                  | None => MNo
                  end
      | _ => MIll
      end
  end.

(** ** Evaluation *)

(** The variables an action expression may mention. src/codegen.rs:98. *)
Definition visible (l : list (string * val)) : list (string * val) := filter (fun '(x, _) => negb (String.eqb x "value_stack")) l.

(** Arguments [&mut x] are passed as the value of [x] ... (src/lr_codegen.rs:209, 225) *)
Fixpoint pass (l : list (string * val)) (args : list val) : option (list val) :=
  match args with
  | [] => Some []
  | VMut x :: args' => match lget x l, pass l args' with Some v, Some vs => Some (v :: vs) | _, _ => None end
  | v :: args' => option_map (cons v) (pass l args')
  end.
(** ... and their new values copied back. src/lr_codegen.rs:209, 225. *)
Fixpoint copy_back (args params : list val) (l : list (string * val)) : list (string * val) :=
  match args, params with
  | VMut x :: args', v :: params' => copy_back args' params' (lset x v l)
  | _ :: args', _ :: params' => copy_back args' params' l
  | _, _ => l
  end.

Section Eval.
Variable fuel : nat.                                                   (* iterations of a [loop] *)
Variable call : string -> string -> list val -> St -> cout.            (* functions *)
Variable self : string.

(** Calls of functions. src/lr_codegen.rs:109-114, 191, 205, 209, 225, 227; src/codegen.rs:76. *)
Definition apply_fn (q x : string) (args : list val) (s : rstate) : out :=
  match pass (rs_locals s) args with
  | None => OIll
  | Some vs =>
      match call q x vs (rs_user s) with
      | CVal v params u => OVal v {| rs_locals := copy_back args params (rs_locals s); rs_user := u |}
      | CPanic k u => OPanic k u
      | CIll => OIll
      | CFuel => OFuel
      end
  end.
(** Calls of functions, constructors and [::std::mem::replace] (src/lr_codegen.rs:203). *)
Definition apply (f : val) (args : list val) (s : rstate) : out :=
  match f with
  | VFn q x => apply_fn q x args s
  | VCtor q x => match construct self q x args with Some v => OVal v s | None => OIll end
  | VReplace =>
      match args with
      | [VMut x; v] => match lget x (rs_locals s) with
                       | Some old => OVal old (with_locals s (lset x v (rs_locals s)))
                       | None => OIll
                       end
      | _ => OIll
      end
  | _ => OIll
  end.

(** Methods of [Vec] on a local variable. src/lr_codegen.rs:187, 202, 205, 211, 213, 216, 227; src/codegen.rs:67, 76, 98. *)
Definition vec_method (x m : string) (args : list val) (s : rstate) : option out :=
  match lget x (rs_locals s) with
  | Some (VVec l) => Some
      (if String.eqb m "push" then match args with [v] => OVal unit_val (with_locals s (lset x (VVec (l ++ [v])) (rs_locals s))) | _ => OIll end
       else if String.eqb m "pop" then
         match args, rev l with
         | [], [] => OVal (some_val None) s
         | [], v :: r => OVal (some_val (Some v)) (with_locals s (lset x (VVec (rev r)) (rs_locals s)))
         | _, _ => OIll
         end
       else if String.eqb m "last" then
         match args, rev l with
         | [], [] => OVal (some_val None) s
         | [], v :: _ => OVal (some_val (Some (VRef v))) s
         | _, _ => OIll
         end
       else OIll)
  | _ => None
  end.
(** Methods of other values: [next], [clone], [unwrap] (src/lr_codegen.rs:184-227), [token_i] and [non_terminal_i]
    (src/codegen.rs:76) *)
Definition val_method (v : val) (m : string) (args : list val) (s : rstate) : out :=
  match v with
  | VIter =>
      if String.eqb m "next" then
        match args, us_next U (rs_user s) with
        | [], (Some r, u) => OVal (some_val (option_map (fun te => match te with
                                                                   | inl t => VCon "Result" "Ok" [VTok t]
                                                                   | inr e => VCon "Result" "Err" [VErr e]
                                                                   end) r)) (with_user s u)
        | [], (None, u) => OPanic KUser u
        | _, _ => OIll
        end
      else OIll
  | VRef (VErr e) =>
      if String.eqb m "clone" then
        match args, us_clone U e (rs_user s) with
        | [], (Some e', u) => OVal (VErr e') (with_user s u)
        | [], (None, u) => OPanic KUser u
        | _, _ => OIll
        end
      else OIll
  | VCon en x vs =>
      if String.eqb en "Option" then
        if String.eqb m "unwrap" then
          match args, vs with
          | [], [w] => OVal w s
          | [], [] => OPanic KUnwrap (rs_user s)
          | _, _ => OIll
          end
        else OIll
      else apply_fn en m (v :: args) s
  | _ => OIll
  end.

(** Results of evaluating a list of expressions: arguments and elements, left to right. src/lr_codegen.rs:109-227. *)
Inductive outs : Type := OVals (vs : list val) (s : rstate) | OStop (o : out).
Definition bind_outs (o : outs) (k : list val -> rstate -> out) : out := match o with OVals vs s => k vs s | OStop o => o end.

(** Arguments, fields and the arms of a [match]. src/lr_codegen.rs:188-220. *)
Section EvalList.
Variable ev : expr A -> rstate -> out.
Fixpoint eval_list (es : list (expr A)) (s : rstate) : outs :=
  match es with
  | [] => OVals [] s
  | e :: es' =>
      match ev e s with
      | OVal v s' => match eval_list es' s' with OVals vs s'' => OVals (v :: vs) s'' | OStop o => OStop o end
      | o => OStop o
      end
  end.
Fixpoint eval_fields (fs : list (string * expr A)) (s : rstate) : outs :=
  match fs with
  | [] => OVals [] s
  | (_, e) :: fs' =>
      match ev e s with
      | OVal v s' => match eval_fields fs' s' with OVals vs s'' => OVals (v :: vs) s'' | OStop o => OStop o end
      | o => OStop o
      end
  end.
Fixpoint eval_arms (arms : list (pat * expr A)) (v : val) (s : rstate) : out :=
  match arms with
  | [] => OPanic KNoArm (rs_user s)
  | (p, e) :: arms' =>
      match match_pat self p v with
      | MYes b => leave (List.length b) (ev e (with_locals s (rev b ++ rs_locals s)))
      | MNo => eval_arms arms' v s
      | MIll => OIll
      end
  end.
End EvalList.
(** [loop] and [for]. src/lr_codegen.rs:186, 210. *)
Section Repeat.
Variable body : rstate -> out.
Fixpoint repeat_loop (k : nat) (s : rstate) : out :=
  match k with
  | 0 => OFuel
  | S k' => match body s with
            | OVal _ s' => repeat_loop k' s'
            | OBreak s' => OVal unit_val s'
            | o => o
            end
  end.
Fixpoint repeat_for (k : nat) (s : rstate) : out :=
  match k with
  | 0 => OVal unit_val s
  | S k' => match body s with
            | OVal _ s' => repeat_for k' s'
            | OBreak s' => OVal unit_val s'
            | o => o
            end
  end.
End Repeat.

(** Expressions and statements. src/lr_codegen.rs:105-227, src/codegen.rs:55-100, 164-210, 293-331. *)
Fixpoint eval (e : expr A) (s : rstate) {struct e} : out :=
  match e with
  | XId x =>
      match lget x (rs_locals s) with
      | Some v => OVal v s
      | None => match path_val static_val self "" x with Some v => OVal v s | None => OIll end
      end
  | XPath q x => match path_val static_val self q x with Some v => OVal v s | None => OIll end
  | XInt w n => if fits w n then OVal (VInt n) s else OIll
  | XStr t => OVal (VStr t) s
  | XUser a =>
      match us_action U a (visible (rs_locals s)) (rs_user s) with
      | (Value v, u) => OVal (VUser v) (with_user s u)
      | (Panicked, u) => OPanic KUser u
      | (Returned, u) => OReturn unit_val (with_user s u)
      end
  | XUnitE => OVal unit_val s
  | XTuple es => bind_outs (eval_list eval es s) (fun vs s' => OVal (VTup vs) s')
  | XArray es => bind_outs (eval_list eval es s) (fun vs s' => OVal (VArr vs) s')
  | XVec es => bind_outs (eval_list eval es s) (fun vs s' => OVal (VVec vs) s')
  | XStruct q x fs =>
      bind_outs (eval_fields eval fs s) (fun vs s' =>
        match construct_fields self q x (combine (map fst fs) vs) with Some v => OVal v s' | None => OIll end)
  | XCall f args => bind (eval f s) (fun fv s' => bind_outs (eval_list eval args s') (fun vs s'' => apply fv vs s''))
  | XMethod r m args =>
      let other := bind (eval r s) (fun v s' => bind_outs (eval_list eval args s') (fun vs s'' => val_method v m vs s'')) in
      match r with
      | XId x => match lget x (rs_locals s) with
                 | Some (VVec _) => bind_outs (eval_list eval args s) (fun vs s' =>
                                      match vec_method x m vs s' with Some o => o | None => OIll end)
                 | _ => other
                 end
      | _ => other
      end
  | XIndex a i =>
      bind (eval a s) (fun av s' => bind (eval i s') (fun iv s'' =>
        match av, iv with
        | VArr l, VInt n => match nth_error l n with Some v => OVal v s'' | None => OPanic KIndex (rs_user s'') end
        | _, _ => OIll
        end))
  | XRef e => bind (eval e s) (fun v s' => OVal (VRef v) s')
  | XMutRef x => OVal (VMut x) s
  | XDeref e => bind (eval e s) (fun v s' => match v with VRef w => OVal w s' | _ => OIll end)
  | XAsUsize e => bind (eval e s) (fun v s' => match v with VInt n => OVal (VInt n) s' | _ => OIll end)
  | XLet x e body =>
      if is_constant M x then OIll
      else bind (eval e s) (fun v s' => leave 1 (eval body (with_locals s' ((x, v) :: rs_locals s'))))
  | XSeq e body => bind (eval e s) (fun _ s' => eval body s')
  | XMatch e arms => bind (eval e s) (fun v s' => eval_arms eval arms v s')
  | XIfLet p e body =>
      bind (eval e s) (fun v s' =>
        match match_pat self p v with
        | MYes b => leave (List.length b) (eval body (with_locals s' (rev b ++ rs_locals s')))
        | MNo => OVal unit_val s'
        | MIll => OIll
        end)
  | XLoop body => repeat_loop (eval body) fuel s
  | XFor n body => bind (eval n s) (fun v s' => match v with VInt k => repeat_for (eval body) k s' | _ => OIll end)
  | XBreak => OBreak s
  | XReturn e => bind (eval e s) (fun v s' => OReturn v s')
  | XPanic msg => OPanic (KMessage msg) (rs_user s)
  | XUnreachable => OPanic KUnreachable (rs_user s)
  end.
End Eval.

(** Calls of functions, [depth] deep. src/lr_codegen.rs:104-228, src/codegen.rs:93-100. *)
Definition fn_of (q x : string) : option (fn_def A) :=
  if String.eqb q "" then match declared_as x (vdefs M) with [DFn f] => Some f | _ => None end
  else match declared_as x (assoc_fns M q) with [f] => Some f | _ => None end.
(** The final values of the parameters, for [&mut] arguments (src/lr_codegen.rs:209, 225) *)
Definition finals (n : nat) (s : rstate) : list val := rev (map snd (skipn (List.length (rs_locals s) - n) (rs_locals s))).
(** src/lr_codegen.rs:105-115 *)
Fixpoint call_fn (fuel depth : nat) (q x : string) (args : list val) (u : St) : cout :=
  match depth with
  | 0 => CFuel
  | S depth' =>
      match fn_of q x with
      | None => CIll
      | Some f =>
          if Nat.eqb (List.length args) (List.length (fd_params f)) && negb (existsb (is_constant M) (fd_params f)) then
            match eval fuel (call_fn fuel depth') q (fd_body f) {| rs_locals := rev (combine (fd_params f) args); rs_user := u |} with
            | OVal v s | OReturn v s => CVal v (finals (List.length args) s) (rs_user s)
            | OPanic k u' => CPanic k u'
            | OBreak _ | OIll => CIll
            | OFuel => CFuel
            end
          else CIll
      end
  end.

End Values.
Arguments val : clear implicits. Arguments rstate : clear implicits. Arguments user : clear implicits. Arguments out : clear implicits.
Arguments cout : clear implicits. Arguments outs : clear implicits. Arguments matched : clear implicits.
