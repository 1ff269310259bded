(** * Spec: what a user of [parser! { .. }] sees.

    Declared non-terminals and token entries, parse trees labelled with declared names, their token
    strings and their values.  Nothing here refers to lowered grammars, tables, items or states. *)
From Verif Require Export Ast Runtime Pattern.
From Coq Require Import NArith.

(** A user-level symbol without its binders. *)
Fixpoint unnamed (s : ast_symbol) : ast_symbol :=
  match s with ASNamed _ s' => unnamed s' | _ => s end.

(** The name a symbol is bound to, if any ([<x:Sym>]). *)
Fixpoint binder_of (s : ast_symbol) : option name :=
  match s with
  | ASNamed b s' => match binder_of s' with Some b' => Some b' | None => Some b end
  | _ => None
  end.

Definition action_expr {A} (a : ast_action A) : A := match a with Infallible e | Fallible e => e end.

Inductive utree (Tok : Type) : Type :=
| ULeaf (tok : Tok)
| UNode (nt : string) (p : nat) (kids : list (utree Tok)).
Arguments ULeaf {Tok} tok. Arguments UNode {Tok} nt p kids.

Section Spec.
Context {A Tok V W : Type}.
Variable nts : list (ast_non_terminal A).
Variable class : Tok -> option string.       (* the token entry a token belongs to *)
Variable fields : Tok -> list V.             (* the values its pattern selects *)
Variable sem : A -> list (string * bval V) -> W -> option (V * W).   (* user actions *)

(** The [p]-th production declared for the non-terminal called [nt]. *)
Definition uproduction (nt : string) (p : nat) : option (ast_production A) :=
  match find (fun N => String.eqb (an_name N) nt) nts with
  | Some N => nth_error (an_productions N) p
  | None => None
  end.

(** [utree_of t s]: [t] is a parse tree for symbol [s]. *)
Inductive utree_of : utree Tok -> ast_symbol -> Prop :=
| ut_named : forall t b s, utree_of t s -> utree_of t (ASNamed b s)
| ut_leaf : forall tok s, class tok = Some s -> utree_of (ULeaf tok) (ASTerminal s)
| ut_node : forall nt p kids pr, uproduction nt p = Some pr -> uforest_of kids (ap_symbols pr) ->
    utree_of (UNode nt p kids) (ASNonTerminal nt)
with uforest_of : list (utree Tok) -> list ast_symbol -> Prop :=
| uf_nil : uforest_of [] []
| uf_cons : forall t ts s ss, utree_of t s -> uforest_of ts ss -> uforest_of (t :: ts) (s :: ss).

(** Token string of a tree. *)
Fixpoint uyield (t : utree Tok) : list Tok :=
  match t with
  | ULeaf tok => [tok]
  | UNode _ _ kids => flat_map uyield kids
  end.

(** [toks] is a sentence of the non-terminal [nt]. *)
Definition sentence (nt : string) (toks : list Tok) : Prop :=
  exists t, utree_of t (ASNonTerminal nt) /\ uyield t = toks.

(** Variables in scope of an action. *)
Fixpoint ubindings (syms : list ast_symbol) (vs : list (bval V)) : list (string * bval V) :=
  match syms, vs with
  | s :: syms', v :: vs' =>
      match binder_of s with
      | Some x => (nm_name x, v) :: ubindings syms' vs'
      | None => ubindings syms' vs'
      end
  | _, _ => []
  end.

Section UEvalList.
Variable ev : utree Tok -> W -> option (bval V * W).
Fixpoint ueval_list (ts : list (utree Tok)) (w : W) : option (list (bval V) * W) :=
  match ts with
  | [] => Some ([], w)
  | t :: ts' =>
      match ev t w with
      | None => None
      | Some (v, w1) =>
          match ueval_list ts' w1 with
          | None => None
          | Some (vs, w2) => Some (v :: vs, w2)
          end
      end
  end.
End UEvalList.

(** Value of a tree: children left to right, then the production's action, once.  [None]: an action panicked. *)
Fixpoint ueval (t : utree Tok) (w : W) : option (bval V * W) :=
  match t with
  | ULeaf tok => Some (BTok (fields tok), w)
  | UNode nt p kids =>
      match uproduction nt p with
      | None => None
      | Some pr =>
          match ueval_list ueval kids w with
          | None => None
          | Some (vs, w1) =>
              match sem (action_expr (ap_action pr)) (ubindings (ap_symbols pr) vs) w1 with
              | None => None
              | Some (v, w2) => Some (BVal v, w2)
              end
          end
      end
  end.
Definition uevals : list (utree Tok) -> W -> option (list (bval V) * W) := ueval_list ueval.

(** Sentential forms: lists of unnamed symbols. *)
Inductive udstep : list ast_symbol -> list ast_symbol -> Prop :=
| uds : forall l nt p pr r, uproduction nt p = Some pr ->
    udstep (l ++ ASNonTerminal nt :: r) (l ++ map unnamed (ap_symbols pr) ++ r).
Inductive uderives : list ast_symbol -> list ast_symbol -> Prop :=
| ud_refl : forall l, uderives l l
| ud_step : forall l m r, udstep l m -> uderives m r -> uderives l r.
End Spec.

Scheme utree_of_mut := Induction for utree_of Sort Prop
  with uforest_of_mut := Induction for uforest_of Sort Prop.
Combined Scheme utree_uforest_ind from utree_of_mut, uforest_of_mut.

(** ** Token patterns

    [pmatch p v]: the value [v] matches the user's pattern [p]; the result lists the sub-values marked
    with [<Type>] in source order. *)
(** The value of the field called [f]. *)
Definition field_named (f : string) (vs : list (string * rval)) : option rval :=
  option_map snd (find (fun x => String.eqb (fst x) f) vs).
Section PMatchList.
Variable m : pattern -> rval -> option (list rval).
Fixpoint pmatch_list (ps : list pattern) (vs : list rval) {struct ps} : option (list rval) :=
  match ps with
  | [] => match vs with [] => Some [] | _ => None end
  | PatDotDot :: ps' =>
      if Nat.ltb (List.length vs) (List.length ps') then None
      else pmatch_list ps' (skipn (List.length vs - List.length ps') vs)
  | p :: ps' =>
      match vs with
      | [] => None
      | v :: vs' => match m p v, pmatch_list ps' vs' with
                    | Some b1, Some b2 => Some (b1 ++ b2)
                    | _, _ => None
                    end
      end
  end.
Fixpoint pmatch_fields (fs : list (string * pattern)) (vs : list (string * rval)) {struct fs}
  : option (list rval) :=
  match fs with
  | [] => Some []
  | (f, p) :: fs' =>
      match field_named f vs with
      | None => None
      | Some v => match m p v, pmatch_fields fs' vs with
                  | Some b1, Some b2 => Some (b1 ++ b2)
                  | _, _ => None
                  end
      end
  end.
End PMatchList.

Fixpoint pmatch (p : pattern) (v : rval) {struct p} : option (list rval) :=
  match p, v with
  | PatUnderscore, _ => Some []
  | PatChoose _, _ => Some [v]
  | PatPath c, RVUnit c' => if String.eqb c c' then Some [] else None
  | PatLit l, RVLit l' => if String.eqb l l' then Some [] else None
  | PatEnum c ps, RVCtor c' vs => if String.eqb c c' then pmatch_list pmatch ps vs else None
  | PatTuple ps, RVTuple vs => pmatch_list pmatch ps vs
  | PatStruct c fs _, RVStruct c' vs => if String.eqb c c' then pmatch_fields pmatch fs vs else None
  | _, _ => None
  end.

(** First token entry whose pattern matches: its name and the selected sub-values. *)
Fixpoint first_match (cs : list conversion) (v : rval) : option (string * list rval) :=
  match cs with
  | [] => None
  | c :: cs' => match pmatch (cv_to c) v with
                | Some fs => Some (cv_from c, fs)
                | None => first_match cs' v
                end
  end.
Definition token_class (cs : list conversion) (v : rval) : option string := option_map fst (first_match cs v).
Definition token_fields (cs : list conversion) (v : rval) : list rval :=
  match first_match cs v with Some (_, fs) => fs | None => [] end.

(** No tuple pattern with exactly one element other than [(..)] (for which the two generated functions
    disagree, see Findings.v). *)
Fixpoint no_single_tuple (p : pattern) : bool :=
  match p with
  | PatTuple [q] => match q with PatDotDot => true | _ => false end
  | PatTuple ps | PatEnum _ ps => forallb no_single_tuple ps
  | PatStruct _ fs _ => forallb (fun '(_, q) => no_single_tuple q) fs
  | _ => true
  end.

(** ** Declarations in a [parser! { .. }] block *)
Section Declarations.
Context {A : Type}.
Definition declared_nts (items : list (grammar_item A)) : list (ast_non_terminal A) :=
  flat_map (fun gi => match gi with GINonTerminal n => [n] | _ => [] end) items.
Definition declared_tokens (items : list (grammar_item A)) : list token_enum :=
  flat_map (fun gi => match gi with GITokenEnum te => [te] | _ => [] end) items.
Definition declared_states (items : list (grammar_item A)) : list ty :=
  flat_map (fun gi => match gi with GITypeDefState t => [t] | _ => [] end) items.
(** The entries of [enum Token]. *)
Definition token_entries (items : list (grammar_item A)) : list conversion :=
  flat_map te_conversions (declared_tokens items).

(** Declared names are pairwise distinct, and no token pattern contains a one-element tuple pattern. *)
Definition distinct_names (items : list (grammar_item A)) : Prop := NoDup (map an_name (declared_nts items)).
Definition plain_patterns (items : list (grammar_item A)) : Prop :=
  forallb (fun c => no_single_tuple (cv_to c)) (token_entries items) = true.

(** What lowering supports: token entries are distinct (and fit 32 bits), every symbol is a declared
    terminal or non-terminal, without [*], [+] or [?], and no action is fallible. *)
Definition symbol_ok (nts : list (ast_non_terminal A)) (cs : list conversion) (s : ast_symbol) : Prop :=
  match unnamed s with
  | ASTerminal t => In t (map cv_from cs)
  | ASNonTerminal n => In n (map an_name nts)
  | _ => False
  end.
Definition production_ok (nts : list (ast_non_terminal A)) (cs : list conversion) (p : ast_production A) : Prop :=
  Forall (symbol_ok nts cs) (ap_symbols p) /\ exists e, ap_action p = Infallible e.
Definition supported (nts : list (ast_non_terminal A)) (cs : list conversion) : Prop :=
  NoDup (map cv_from cs) /\ (N.of_nat (List.length cs) <= 4294967296)%N /\
  forall N p, In N nts -> In p (an_productions N) -> production_ok nts cs p.

(** Symbol [s] is used in some right-hand side (possibly bound to a name). *)
Definition used (nts : list (ast_non_terminal A)) (s : ast_symbol) : Prop :=
  exists N p x, In N nts /\ In p (an_productions N) /\ In x (ap_symbols p) /\ unnamed x = s.
(** What the diagnostics of lowering say. *)
Definition lowering_diagnostic (nts : list (ast_non_terminal A)) (cs : list conversion) (p : panic) : Prop :=
  match p with
  | PDupTerminal s => exists i j, i < j /\ nth_error (map cv_from cs) i = Some s /\ nth_error (map cv_from cs) j = Some s
  | PUnknownNonTerminal n => used nts (ASNonTerminal n) /\ ~ In n (map an_name nts)
  | PUnknownTerminal t => used nts (ASTerminal t) /\ ~ In t (map cv_from cs)
  | PRepeatUnsupported => exists op s, used nts (ASRepeat op s)
  | PFallibleUnsupported => exists N p e, In N nts /\ In p (an_productions N) /\ ap_action p = Fallible e
  | PTryFrom => ~ (N.of_nat (List.length cs) <= 4294967296)%N
  | _ => False
  end.
End Declarations.
