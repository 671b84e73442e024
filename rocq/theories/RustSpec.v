(** The part of Rust that occurs in the emitted code: expressions with their precedence, patterns, statements, functions of an [impl], and what they do.  A reference stands for the value it refers to:
    the borrow checker does not let the value change while there is one, except through it. *)
From Coq Require Import String List Arith NArith Bool.
From Verif Require Import Base RustTokenSpec.
Import ListNotations.
Local Open Scope string_scope.
Local Open Scope list_scope.

(** ** Syntax *)

Inductive pat : Type :=
| PWild
| PBind (x : string)
| PLit (n : N) (suffix : string)
| PBetween (a b : N) (suffix : string)
| PPath (p : list string)
| PTuple (l : list pat)
| PCon (p : list string) (l : list pat)             (* tuple variant *)
| PFields (p : list string) (l : list (string * pat)).  (* struct variant *)
Inductive expr : Type :=
| EInt (n : N) (suffix : string)
| EPath (p : list string)
| ETuple (l : exprs)
| ECall (f : expr) (l : exprs)
| EMethod (e : expr) (m : string) (l : exprs)
| EField (e : expr) (f : string)
| EIndex (e i : expr)
| EStruct (p : list string) (fs : list string) (l : exprs)
| EMacro (m : string) (l : exprs)
| ERef (mutable : bool) (e : expr)
| EDeref (e : expr)
| ENot (e : expr)
| EMinus (a b : expr)
| ERange (inclusive : bool) (a b : expr)
| ECast (e : expr) (ty : string)
| EClosure (x : string) (e : expr)
| ETry (e : expr)
| EReturn (e : expr)
| EAssign (a b : expr)
| EAddAssign (a b : expr)
| EMatch (e : expr) (l : arms)
| EIfLet (p : pat) (e : expr) (a b : block)
| EBlock (b : block)
| ELoop (b : block)
| EWhile (e : expr) (b : block)
| EFor (p : pat) (e : expr) (b : block)
with exprs : Type := XNil | XCons (e : expr) (l : exprs)
with arms : Type := ANil | ACons (p : pat) (e : expr) (l : arms)
with block : Type :=
| BNil
| BTail (e : expr)
| BLet (p : pat) (ty : option string) (e : expr) (b : block)
| BStmt (e : expr) (b : block).

(** ** Parsing *)

Notation "'get' x <- a ; b" := (match a with Some x => b | None => None end) (at level 200, x pattern, a at level 100, b at level 200).
Definition parsed (A : Type) : Type := option (A * list tree).

(** [a::b::c]. *)
Fixpoint parse_segments (l : list tree) : list string * list tree :=
  match l with
  | TPunct "::" :: TId s :: r => let '(p, r) := parse_segments r in (s :: p, r)
  | _ => ([], l)
  end.
Definition parse_path (l : list tree) : parsed (list string) := match l with TId s :: r => let '(p, r) := parse_segments r in Some (s :: p, r) | _ => None end.
(** Elements with commas between them, and perhaps one at the end, up to the end of the group. *)
Fixpoint listed {A : Type} (fuel : nat) (one : list tree -> parsed A) (l : list tree) : option (list A) :=
  match fuel, l with
  | _, [] => Some []
  | S fuel, _ =>
    get (a, r) <- one l;
    match r with
    | [] => Some [a]
    | TPunct "," :: r => get v <- listed fuel one r; Some (a :: v)
    | _ => None
    end
  | O, _ => None
  end.
Fixpoint exprs_of (l : list expr) : exprs := match l with [] => XNil | e :: l => XCons e (exprs_of l) end.
(** Parsers for smaller pieces of code; [p_expr] is told whether [S { .. }] is not an expression here. *)
Record parsers : Type := mkParsers {
  p_pat : list tree -> parsed pat;
  p_expr : bool -> list tree -> parsed expr;
  p_unary : bool -> list tree -> parsed expr;
  p_post : expr -> list tree -> parsed expr;
  p_arms : list tree -> option arms;
  p_block : list tree -> option block
}.
Definition no_parsers : parsers := mkParsers (fun _ => None) (fun _ _ => None) (fun _ _ => None) (fun _ _ => None) (fun _ => None) (fun _ => None).

Section Parse.
Variable P : parsers.

(** [f: p] or [f]. *)
Definition parse_pat_field (l : list tree) : parsed (string * pat) :=
  match l with
  | TId f :: TPunct ":" :: r => get (p, r) <- p_pat P r; Some ((f, p), r)
  | TId f :: r => Some ((f, PBind f), r)
  | _ => None
  end.
Definition parse_pat (l : list tree) : parsed pat :=
  match l with
  | TId "_" :: r => Some (PWild, r)
  | TId "mut" :: TId x :: r => Some (PBind x, r)
  | TInt a s :: TPunct "..=" :: TInt b s' :: r => if String.eqb s s' then Some (PBetween a b s, r) else None
  | TInt n s :: r => Some (PLit n s, r)
  | TGroup Paren g :: r => get v <- listed (List.length g) (p_pat P) g; Some (PTuple v, r)
  | _ =>
    get (p, r) <- parse_path l;
    match r with
    | TGroup Paren g :: r => get v <- listed (List.length g) (p_pat P) g; Some (PCon p v, r)
    | TGroup Brace g :: r => get v <- listed (List.length g) parse_pat_field g; Some (PFields p v, r)
    | _ => match p with [x] => Some (PBind x, r) | _ => Some (PPath p, r) end
    end
  end.
(** [f: e] or [f]. *)
Definition parse_field (l : list tree) : parsed (string * expr) :=
  match l with
  | TId f :: TPunct ":" :: r => get (e, r) <- p_expr P false r; Some ((f, e), r)
  | TId f :: r => Some ((f, EPath [f]), r)
  | _ => None
  end.
Definition parse_args (g : list tree) : option exprs := get v <- listed (List.length g) (p_expr P false) g; Some (exprs_of v).
(** Expressions that end with a block. *)
Definition parse_blocklike (l : list tree) : parsed expr :=
  match l with
  | TGroup Brace g :: r => get b <- p_block P g; Some (EBlock b, r)
  | TId "match" :: r =>
    get (e, r) <- p_expr P true r;
    match r with TGroup Brace g :: r => get v <- p_arms P g; Some (EMatch e v, r) | _ => None end
  | TId "if" :: TId "let" :: r =>
    get (p, r) <- p_pat P r;
    match r with
    | TPunct "=" :: r =>
      get (e, r) <- p_expr P true r;
      match r with TGroup Brace a :: TId "else" :: TGroup Brace b :: r => get a <- p_block P a; get b <- p_block P b; Some (EIfLet p e a b, r) | _ => None end
    | _ => None
    end
  | TId "loop" :: TGroup Brace g :: r => get b <- p_block P g; Some (ELoop b, r)
  | TId "while" :: r =>
    get (e, r) <- p_expr P true r;
    match r with TGroup Brace g :: r => get b <- p_block P g; Some (EWhile e b, r) | _ => None end
  | TId "for" :: r =>
    get (p, r) <- p_pat P r;
    match r with
    | TId "in" :: r =>
      get (e, r) <- p_expr P true r;
      match r with TGroup Brace g :: r => get b <- p_block P g; Some (EFor p e b, r) | _ => None end
    | _ => None
    end
  | _ => None
  end.
Definition blocklike (l : list tree) : bool :=
  match l with
  | TGroup Brace _ :: _ => true
  | TId s :: _ => existsb (String.eqb s) ["match"; "if"; "loop"; "while"; "for"]
  | _ => false
  end.
Definition parse_primary (no_struct : bool) (l : list tree) : parsed expr :=
  if blocklike l then parse_blocklike l
  else
    match l with
    | TInt n s :: r => Some (EInt n s, r)
    | TGroup Paren g :: r =>
      match listed (List.length g) (p_expr P false) g with
      | Some [e] => match last g (TPunct "") with TPunct "," => Some (ETuple (XCons e XNil), r) | _ => Some (e, r) end
      | Some v => Some (ETuple (exprs_of v), r)
      | None => None
      end
    | TPunct "|" :: TId x :: TPunct "|" :: r => get (e, r) <- p_expr P false r; Some (EClosure x e, r)
    | _ =>
      get (p, r) <- parse_path l;
      match p, r with
      | [m], TPunct "!" :: TGroup Paren g :: r => get v <- parse_args g; Some (EMacro m v, r)
      | [m], TPunct "!" :: TGroup Bracket g :: r => get v <- parse_args g; Some (EMacro m v, r)
      | _, TGroup Brace g :: r' =>
        if no_struct then Some (EPath p, r)
        else get v <- listed (List.length g) parse_field g; Some (EStruct p (map fst v) (exprs_of (map snd v)), r')
      | _, _ => Some (EPath p, r)
      end
    end.
Definition parse_post (e : expr) (l : list tree) : parsed expr :=
  match l with
  | TPunct "." :: TId m :: TGroup Paren g :: r => get v <- parse_args g; p_post P (EMethod e m v) r
  | TPunct "." :: TId f :: r => p_post P (EField e f) r
  | TGroup Paren g :: r => get v <- parse_args g; p_post P (ECall e v) r
  | TGroup Bracket g :: r =>
    get (i, r') <- p_expr P false g;
    match r' with [] => p_post P (EIndex e i) r | _ => None end
  | TPunct "?" :: r => p_post P (ETry e) r
  | _ => Some (e, l)
  end.
Definition parse_unary (no_struct : bool) (l : list tree) : parsed expr :=
  match l with
  | TPunct "&" :: TId "mut" :: r => get (e, r) <- p_unary P no_struct r; Some (ERef true e, r)
  | TPunct "&" :: r => get (e, r) <- p_unary P no_struct r; Some (ERef false e, r)
  | TPunct "*" :: r => get (e, r) <- p_unary P no_struct r; Some (EDeref e, r)
  | TPunct "!" :: r => get (e, r) <- p_unary P no_struct r; Some (ENot e, r)
  | _ => get (e, r) <- parse_primary no_struct l; p_post P e r
  end.
Definition parse_expr (no_struct : bool) (l : list tree) : parsed expr :=
  match l with
  | TId "return" :: r => get (e, r) <- p_expr P no_struct r; Some (EReturn e, r)
  | _ =>
    get (a, r) <- parse_unary no_struct l;
    match r with
    | TId "as" :: TId ty :: r => Some (ECast a ty, r)
    | TPunct "-" :: r => get (b, r) <- p_unary P no_struct r; Some (EMinus a b, r)
    | TPunct ".." :: r => get (b, r) <- p_unary P no_struct r; Some (ERange false a b, r)
    | TPunct "..=" :: r => get (b, r) <- p_unary P no_struct r; Some (ERange true a b, r)
    | TPunct "=" :: r => get (b, r) <- p_expr P no_struct r; Some (EAssign a b, r)
    | TPunct "+=" :: r => get (b, r) <- p_expr P no_struct r; Some (EAddAssign a b, r)
    | _ => Some (a, r)
    end
  end.
(** [p => e,]; the comma is optional behind a block and at the end. *)
Fixpoint parse_arms (fuel : nat) (l : list tree) : option arms :=
  match fuel, l with
  | _, [] => Some ANil
  | S fuel, _ =>
    get (p, r) <- p_pat P l;
    match r with
    | TPunct "=>" :: r =>
      let block := match r with TGroup Brace _ :: _ => true | _ => false end in
      get (e, r) <- (if block then parse_blocklike r else p_expr P false r);
      match r with
      | TPunct "," :: r => get v <- parse_arms fuel r; Some (ACons p e v)
      | [] => Some (ACons p e ANil)
      | _ => if block then get v <- parse_arms fuel r; Some (ACons p e v) else None
      end
    | _ => None
    end
  | O, _ => None
  end.
(** The type behind [:], up to [=]; only a single name is of interest. *)
Fixpoint skip_type (l : list tree) : list tree :=
  match l with
  | TPunct "=" :: _ => l
  | _ :: r => skip_type r
  | [] => []
  end.
Fixpoint parse_block (fuel : nat) (l : list tree) : option block :=
  match fuel, l with
  | _, [] => Some BNil
  | S fuel, TId "let" :: r =>
    get (p, r) <- p_pat P r;
    let ty := match r with TPunct ":" :: TId t :: TPunct "=" :: _ => Some t | _ => None end in
    match (match r with TPunct ":" :: r => skip_type r | _ => r end) with
    | TPunct "=" :: r =>
      get (e, r) <- p_expr P false r;
      match r with TPunct ";" :: r => get b <- parse_block fuel r; Some (BLet p ty e b) | _ => None end
    | _ => None
    end
  | S fuel, _ =>
    get (e, r) <- (if blocklike l then parse_blocklike l else p_expr P false l);
    match r with
    | TPunct ";" :: r => get b <- parse_block fuel r; Some (BStmt e b)
    | [] => Some (BTail e)
    | TPunct _ :: _ => None
    | _ => if blocklike l then get b <- parse_block fuel r; Some (BStmt e b) else None
    end
  | O, _ => None
  end.
Definition more_parsers : parsers :=
  mkParsers parse_pat parse_expr parse_unary parse_post (fun g => parse_arms (List.length g) g) (fun g => parse_block (List.length g) g).
End Parse.
(** Parsers for code of this depth. *)
Fixpoint rust_parsers (n : nat) : parsers := match n with O => no_parsers | S n => more_parsers (rust_parsers n) end.
Definition eventually (p : nat -> Prop) : Prop := exists n, forall m, n <= m -> p m.
(** The code of a block. *)
Definition is_block (g : list tree) (b : block) : Prop := eventually (fun n => p_block (rust_parsers n) g = Some b).

(** ** Items *)

(** The first [impl .. ty .. { .. }] that is not the implementation of a trait. *)
Fixpoint impl_header (ty : string) (found : bool) (l : list tree) : option (list tree) :=
  match l with
  | TId "for" :: _ => None
  | TId s :: r => impl_header ty (found || String.eqb s ty) r
  | TGroup Brace g :: _ => if found then Some g else None
  | _ :: r => impl_header ty found r
  | [] => None
  end.
Fixpoint impl_of (ty : string) (l : list tree) : option (list tree) :=
  match l with
  | TId "impl" :: r => match impl_header ty false r with Some g => Some g | None => impl_of ty r end
  | _ :: r => impl_of ty r
  | [] => None
  end.
(** The body behind a header. *)
Fixpoint body_of (l : list tree) : option (list tree) :=
  match l with
  | TGroup Brace g :: _ => Some g
  | _ :: r => body_of r
  | [] => None
  end.
(** Parameters and body of a function in an [impl]. *)
Fixpoint function_of (f : string) (l : list tree) : option (list tree * list tree) :=
  match l with
  | TId "fn" :: TId f' :: TGroup Paren ps :: r => if String.eqb f f' then match body_of r with Some b => Some (ps, b) | None => None end else function_of f r
  | _ :: r => function_of f r
  | [] => None
  end.
(** Parameters: the name, and whether it is [&mut]. *)
Fixpoint skip_parameter (l : list tree) : list tree :=
  match l with
  | TPunct "," :: r => r
  | _ :: r => skip_parameter r
  | [] => []
  end.
Fixpoint parameters (fuel : nat) (l : list tree) : option (list (string * bool)) :=
  match fuel, l with
  | _, [] => Some []
  | S fuel, TPunct "&" :: TId "mut" :: TId "self" :: r => option_map (cons ("self", true)) (parameters fuel (skip_parameter r))
  | S fuel, TPunct "&" :: TId "self" :: r => option_map (cons ("self", false)) (parameters fuel (skip_parameter r))
  | S fuel, TId x :: TPunct ":" :: TPunct "&" :: TId "mut" :: r => option_map (cons (x, true)) (parameters fuel (skip_parameter r))
  | S fuel, TId x :: TPunct ":" :: r => option_map (cons (x, false)) (parameters fuel (skip_parameter r))
  | _, _ => None
  end.
Record function : Type := mkFunction { fn_parameters : list (string * bool); fn_body : block }.
(** The file has an [impl] of the type with this function. *)
Definition has_function (file : list tree) (ty f : string) (fn : function) : Prop :=
  exists g ps b, impl_of ty file = Some g /\ function_of f g = Some (ps, b) /\ parameters (List.length ps) ps = Some (fn_parameters fn) /\ is_block b (fn_body fn).
(** The variants of an [enum] without data. *)
Definition parse_variant (l : list tree) : parsed string := match l with TId s :: r => Some (s, r) | _ => None end.
Fixpoint enum_of (e : string) (l : list tree) : option (list string) :=
  match l with
  | TId "enum" :: TId e' :: TGroup Brace g :: r => if String.eqb e e' then listed (List.length g) parse_variant g else enum_of e r
  | _ :: r => enum_of e r
  | [] => None
  end.

(** The type of a field of a struct or of a variant, if it is a single name. *)
Fixpoint typed_field (f : string) (first : bool) (l : list tree) : option string :=
  match l with
  | TId f' :: TPunct ":" :: TId t :: r => if first && String.eqb f f' then match r with [] | TPunct "," :: _ => Some t | _ => None end else typed_field f false r
  | TPunct "," :: r => typed_field f true r
  | _ :: r => typed_field f false r
  | [] => None
  end.
Fixpoint variant_of (v : string) (l : list tree) : option (list tree) :=
  match l with
  | TId v' :: TGroup Brace g :: r => if String.eqb v v' then Some g else variant_of v r
  | _ :: r => variant_of v r
  | [] => None
  end.
Definition is_word (s : string) (l : list tree) : bool := match l with TId s' :: _ => String.eqb s s' | _ => false end.
Fixpoint item_of (kind name : string) (l : list tree) : option (list tree) :=
  match l with
  | t :: r => if is_word kind [t] && is_word name r then body_of r else item_of kind name r
  | [] => None
  end.
Definition field_type (file : list tree) (p : list string) (f : string) : option string :=
  match p with
  | [s] => get g <- item_of "struct" s file; typed_field f true g
  | [e; v] => get g <- item_of "enum" e file; get g <- variant_of v g; typed_field f true g
  | _ => None
  end.

(** ** Running *)

(** Integers have their type, or none yet if they are literals without a suffix. *)
Inductive value : Type :=
| VInt (n : N) (ty : string)
| VChar (c : N)
| VBool (b : bool)
| VTuple (l : list value)
| VVec (l : list value)
| VCon (p : list string) (fs : list (string * value)).
Definition VUnit : value := VTuple [].
Definition VNone : value := VCon ["None"] [].
Definition VSome (v : value) : value := VCon ["Some"] [("0", v)].
Definition VOk (v : value) : value := VCon ["Ok"] [("0", v)].
Definition VErr (v : value) : value := VCon ["Err"] [("0", v)].
Definition option_value (o : option value) : value := match o with Some v => VSome v | None => VNone end.
(** How an expression ends. *)
Inductive outcome : Type := Val (v : value) | Ret (v : value) | Panics.
Definition store : Type := list (string * value).

(** The type of two integers that must have the same one. *)
Definition join (a b : string) : option string := if String.eqb a "" then Some b else if String.eqb b "" || String.eqb a b then Some a else None.
Definition typed (ty : option string) (v : value) : option value :=
  match ty, v with
  | Some t, VInt n s => match join t s with Some t => Some (VInt n t) | None => None end
  | _, _ => Some v
  end.
Fixpoint look {A} (x : string) (l : list (string * A)) : option A := match l with [] => None | (y, a) :: l => if String.eqb x y then Some a else look x l end.
Fixpoint put {A} (x : string) (a : A) (l : list (string * A)) : option (list (string * A)) :=
  match l with
  | [] => None
  | (y, b) :: l => if String.eqb x y then Some ((y, a) :: l) else option_map (cons (y, b)) (put x a l)
  end.
Definition same_path (p q : list string) : bool := if list_eq_dec string_dec p q then true else false.

(** Whether a value has the form of a pattern, with the variables it binds; [None]: the types differ. *)
Fixpoint matches (p : pat) (v : value) {struct p} : option (option store) :=
  let all := fix all (ps : list pat) (vs : list value) : option (option store) :=
    match ps, vs with
    | [], [] => Some (Some [])
    | p :: ps, v :: vs =>
      match matches p v, all ps vs with
      | Some (Some a), Some (Some b) => Some (Some (a ++ b))
      | Some _, Some _ => Some None
      | _, _ => None
      end
    | _, _ => None
    end in
  match p, v with
  | PWild, _ => Some (Some [])
  | PBind x, _ => Some (Some [(x, v)])
  | PLit n s, VInt m t => get _ <- join s t; Some (if (n =? m)%N then Some [] else None)
  | PBetween a b s, VInt m t => get _ <- join s t; Some (if ((a <=? m) && (m <=? b))%N then Some [] else None)
  | PPath q, VCon r [] => Some (if same_path q r then Some [] else None)
  | PPath q, VCon r _ => if same_path q r then None else Some None
  | PTuple ps, VTuple vs => all ps vs
  | PCon q ps, VCon r fs => if same_path q r then all ps (map snd fs) else Some None
  | PFields q ps, VCon r fs =>
    if same_path q r then
      (fix named (ps : list (string * pat)) (fs : list (string * value)) : option (option store) :=
         match ps, fs with
         | [], [] => Some (Some [])
         | (f, p) :: ps, (f', v) :: fs =>
           if String.eqb f f' then
             match matches p v, named ps fs with
             | Some (Some a), Some (Some b) => Some (Some (a ++ b))
             | Some _, Some _ => Some None
             | _, _ => None
             end
           else None
         | _, _ => None
         end) ps fs
    else Some None
  | _, _ => None
  end.

(** Places: a variable and fields of it. *)
Fixpoint place (e : expr) : option (string * list string) :=
  match e with
  | EPath [x] => Some (x, [])
  | EField e f => get (x, l) <- place e; Some (x, l ++ [f])
  | _ => None
  end.
Fixpoint read (v : value) (l : list string) : option value :=
  match l, v with
  | [], _ => Some v
  | f :: l, VCon _ fs => get w <- look f fs; read w l
  | _, _ => None
  end.
Fixpoint write (v : value) (l : list string) (new : value) : option value :=
  match l, v with
  | [], _ => Some new
  | f :: l, VCon p fs => get w <- look f fs; get w <- write w l new; get fs <- put f w fs; Some (VCon p fs)
  | _, _ => None
  end.
Definition read_place (st : store) (pl : string * list string) : option value := get v <- look (fst pl) st; read v (snd pl).
Definition write_place (st : store) (pl : string * list string) (new : value) : option store := get v <- look (fst pl) st; get v <- write v (snd pl) new; put (fst pl) v st.

(** Methods of the standard library: the receiver afterwards, and the result.  Iterators over characters are the characters that are left. *)
Definition len_utf8 (c : N) : N := (if c <? 128 then 1 else if c <? 2048 then 2 else if c <? 65536 then 3 else 4)%N.
(** The number of characters in front of a byte; [None]: there is none that ends there. *)
Fixpoint at_byte (l : list N) (n : N) : option nat :=
  if (n =? 0)%N then Some 0
  else match l with
       | [] => None
       | c :: l => if (n <? len_utf8 c)%N then None else option_map S (at_byte l (n - len_utf8 c))
       end.
(** The part of a text between two bytes. *)
Definition slice_bytes (l : list N) (a b : N) : option (list N) :=
  if (b <? a)%N then None else get i <- at_byte l a; get j <- at_byte l b; Some (firstn (j - i) (skipn i l)).
Fixpoint characters (l : list value) : option (list N) :=
  match l with
  | [] => Some []
  | VChar c :: l => option_map (cons c) (characters l)
  | _ => None
  end.
Definition builtin (m : string) (v : value) (args : list value) : option (value * outcome) :=
  match m, v, args with
  | "peek", VVec l, [] => Some (v, Val (option_value (hd_error l)))
  | "next", VVec [], [] => Some (v, Val VNone)
  | "next", VVec (a :: l), [] => Some (VVec l, Val (VSome a))
  | "copied", VCon _ _, [] => Some (v, Val v)
  | "unwrap_or", VCon ["Some"] [(_, a)], [_] => Some (v, Val a)
  | "unwrap_or", VCon ["None"] [], [b] => Some (v, Val b)
  | "unwrap", VCon ["Some"] [(_, a)], [] => Some (v, Val a)
  | "unwrap", VCon ["None"] [], [] => Some (v, Panics)
  | "len_utf8", VChar c, [] => Some (v, Val (VInt (len_utf8 c) "usize"))
  | "chars", VVec _, [] => Some (v, Val v)
  | "peekable", VVec _, [] => Some (v, Val v)
  | "is_empty", VVec l, [] => Some (v, Val (VBool (match l with [] => true | _ => false end)))
  | "len", VVec l, [] => Some (v, Val (VInt (N.of_nat (List.length l)) "usize"))
  | "push", VVec l, [a] => Some (VVec (l ++ [a]), Val VUnit)
  | "push_back", VVec l, [a] => Some (VVec (l ++ [a]), Val VUnit)
  | "pop", VVec l, [] => match rev l with [] => Some (v, Val VNone) | a :: r => Some (VVec (rev r), Val (VSome a)) end
  | "last", VVec l, [] => match rev l with [] => Some (v, Val VNone) | a :: _ => Some (v, Val (VSome a)) end
  | "pop_front", VVec l, [] => match l with [] => Some (v, Val VNone) | a :: r => Some (VVec r, Val (VSome a)) end
  | "front", VVec l, [] => Some (v, Val (option_value (hd_error l)))
  | _, _, _ => None
  end.
(** What is not in the code of a function: the types of fields, functions by path, other methods (the receiver and the arguments behind [&mut] afterwards, and the result), calls of closures (the closure afterwards). *)
Record outer : Type := mkOuter {
  o_types : list (list string * string * string);
  o_call : list string -> list value -> option outcome;
  o_method : string -> value -> list value -> option (value * list value * outcome);
  o_closure : value -> option (value * outcome)
}.
(** Restore the variables after a block: those in front of the older ones go. *)
Definition leave (st st' : store) : store := skipn (List.length st' - List.length st) st'.

Section Eval.
Variable O : outer.
Variable rounds : nat. (* of every loop *)

Definition then_value (r : option (store * outcome)) (k : store -> value -> option (store * outcome)) : option (store * outcome) :=
  match r with
  | Some (st, Val v) => k st v
  | other => other
  end.
(** Repeat a body that returns or gives a unit. *)
Fixpoint repeat_body (n : nat) (body : store -> option (store * outcome)) (st : store) : option (store * outcome) :=
  match n with
  | 0 => None
  | S n => then_value (body st) (fun st _ => repeat_body n body st)
  end.
Fixpoint while_body (n : nat) (cond body : store -> option (store * outcome)) (st : store) : option (store * outcome) :=
  match n with
  | 0 => None
  | S n =>
    then_value (cond st) (fun st v =>
      match v with
      | VBool true => then_value (body st) (fun st _ => while_body n cond body st)
      | VBool false => Some (st, Val VUnit)
      | _ => None
      end)
  end.
(** A body for every number from [a], [n] of them. *)
Fixpoint for_body (n : nat) (a : N) (ty : string) (body : value -> store -> option (store * outcome)) (st : store) : option (store * outcome) :=
  match n with
  | 0 => Some (st, Val VUnit)
  | S n => then_value (body (VInt a ty) st) (fun st _ => for_body n (a + 1)%N ty body st)
  end.
(** Evaluate in a scope with more variables. *)
Definition scoped (vars : store) (st : store) (k : store -> option (store * outcome)) : option (store * outcome) :=
  match k (vars ++ st) with Some (st', o) => Some (leave st st', o) | None => None end.
(** Arguments behind [&mut] get their new values. *)
Fixpoint write_back (l : exprs) (vs : list value) (st : store) : option store :=
  match l, vs with
  | XNil, [] => Some st
  | XCons (ERef true e) l, v :: vs => get pl <- place e; get st <- write_place st pl v; write_back l vs st
  | XCons _ l, _ :: vs => write_back l vs st
  | _, _ => None
  end.
Definition field_typed (p : list string) (f : string) (v : value) : option value :=
  typed (option_map snd (find (fun x => same_path p (fst (fst x)) && String.eqb f (snd (fst x))) (o_types O))) v.
Fixpoint fields_typed (p : list string) (fs : list string) (vs : list value) : option (list (string * value)) :=
  match fs, vs with
  | [], [] => Some []
  | f :: fs, v :: vs => get v <- field_typed p f v; get l <- fields_typed p fs vs; Some ((f, v) :: l)
  | _, _ => None
  end.
Definition call_method (m : string) (v : value) (args : list value) : option (value * list value * outcome) :=
  match builtin m v args with
  | Some (v, o) => Some (v, args, o)
  | None => o_method O m v args
  end.

Fixpoint eval (e : expr) (st : store) {struct e} : option (store * outcome) :=
  match e with
  | EInt n s => Some (st, Val (VInt n s))
  | EPath [x] =>
    match look x st with
    | Some v => Some (st, Val v)
    | None => if String.eqb x "None" then Some (st, Val VNone) else None
    end
  | EPath p => Some (st, Val (VCon p []))
  | ETuple l => eval_list l st (fun st vs => Some (st, Val (VTuple vs)))
  | ECall (EPath ["Some"]) l => eval_list l st (fun st vs => match vs with [v] => Some (st, Val (VSome v)) | _ => None end)
  | ECall (EPath ["Ok"]) l => eval_list l st (fun st vs => match vs with [v] => Some (st, Val (VOk v)) | _ => None end)
  | ECall (EPath ["Err"]) l => eval_list l st (fun st vs => match vs with [v] => Some (st, Val (VErr v)) | _ => None end)
  | ECall (EPath ["std"; "collections"; "VecDeque"; "new"]) XNil => Some (st, Val (VVec []))
  | ECall (EPath ["Vec"; "new"]) XNil => Some (st, Val (VVec []))
  | ECall (EPath p) l => eval_list l st (fun st vs => get o <- o_call O p vs; Some (st, o))
  | ECall f XNil =>
    get pl <- place f; get v <- read_place st pl;
    match o_closure O v with
    | Some (v, o) => get st <- write_place st pl v; Some (st, o)
    | None => None
    end
  | ECall _ _ => None
  | EMethod e "map" (XCons (EClosure x body) XNil) =>
    then_value (eval e st) (fun st v =>
      match v with
      | VCon ["Some"] [(_, a)] => then_value (scoped [(x, a)] st (eval body)) (fun st b => Some (st, Val (VSome b)))
      | VCon ["None"] [] => Some (st, Val VNone)
      | _ => None
      end)
  | EMethod e m l =>
    match place e with
    | Some pl =>
      eval_list l st (fun st vs =>
        get v <- read_place st pl;
        match call_method m v vs with
        | Some (v, vs, o) => get st <- write_place st pl v; get st <- write_back l vs st; Some (st, o)
        | None => None
        end)
    | None =>
      then_value (eval e st) (fun st v => eval_list l st (fun st vs =>
        match call_method m v vs with
        | Some (_, vs, o) => get st <- write_back l vs st; Some (st, o)
        | None => None
        end))
    end
  | EField e f => then_value (eval e st) (fun st v => match v with VCon _ fs => get w <- look f fs; Some (st, Val w) | _ => None end)
  | EIndex e i =>
    then_value (eval e st) (fun st v => then_value (eval i st) (fun st w =>
      match v, w with
      | VVec l, VInt n _ => match nth_error l (N.to_nat n) with Some a => Some (st, Val a) | None => Some (st, Panics) end
      | VVec l, VCon ["Range"] [(_, VInt a _); (_, VInt b _)] => get l <- characters l; match slice_bytes l a b with Some w => Some (st, Val (VVec (map VChar w))) | None => Some (st, Panics) end
      | _, _ => None
      end))
  | EStruct p fs l => eval_list l st (fun st vs => get fs <- fields_typed p fs vs; Some (st, Val (VCon p fs)))
  | EMacro "unreachable" XNil => Some (st, Panics)
  | EMacro "vec" l => eval_list l st (fun st vs => Some (st, Val (VVec vs)))
  | EMacro _ _ => None
  | ERef _ e => eval e st
  | EDeref e => eval e st
  | ENot e => then_value (eval e st) (fun st v => match v with VBool b => Some (st, Val (VBool (negb b))) | _ => None end)
  | EMinus a b =>
    then_value (eval a st) (fun st v => then_value (eval b st) (fun st w =>
      match v, w with
      | VInt n t, VInt m s => get t <- join t s; Some (st, if (n <? m)%N then Panics else Val (VInt (n - m) t))
      | _, _ => None
      end))
  | ERange inclusive a b =>
    then_value (eval a st) (fun st v => then_value (eval b st) (fun st w => Some (st, Val (VCon [if inclusive then "RangeInclusive" else "Range"] [("start", v); ("end", w)]))))
  | ECast e ty => then_value (eval e st) (fun st v => match v with VChar c => if String.eqb ty "u32" then Some (st, Val (VInt c "u32")) else None | _ => None end)
  | EClosure _ _ => None
  | ETry e =>
    then_value (eval e st) (fun st v =>
      match v with
      | VCon ["Ok"] [(_, a)] => Some (st, Val a)
      | VCon ["Err"] [(_, a)] => Some (st, Ret (VErr a))
      | _ => None
      end)
  | EReturn e => then_value (eval e st) (fun st v => Some (st, Ret v))
  | EAssign a b => then_value (eval b st) (fun st v => get pl <- place a; get st <- write_place st pl v; Some (st, Val VUnit))
  | EAddAssign a b =>
    then_value (eval b st) (fun st v =>
      get pl <- place a; get w <- read_place st pl;
      match w, v with
      | VInt n t, VInt m s => get t <- join t s; get st <- write_place st pl (VInt (n + m) t); Some (st, Val VUnit)
      | _, _ => None
      end)
  | EMatch e l => then_value (eval e st) (fun st v => eval_arms l v st)
  | EIfLet p e a b =>
    then_value (eval e st) (fun st v =>
      match matches p v with
      | Some (Some vars) => scoped vars st (eval_block a)
      | Some None => scoped [] st (eval_block b)
      | None => None
      end)
  | EBlock b => scoped [] st (eval_block b)
  | ELoop b => repeat_body rounds (fun st => scoped [] st (eval_block b)) st
  | EWhile e b => while_body rounds (eval e) (fun st => scoped [] st (eval_block b)) st
  | EFor p e b =>
    then_value (eval e st) (fun st v =>
      match v with
      | VCon ["Range"] [(_, VInt n t); (_, VInt m s)] =>
        get t <- join t s;
        for_body (N.to_nat (m - n)) n t (fun v st => match matches p v with Some (Some vars) => scoped vars st (eval_block b) | _ => None end) st
      | _ => None
      end)
  end
with eval_list (l : exprs) (st : store) (k : store -> list value -> option (store * outcome)) {struct l} : option (store * outcome) :=
  match l with
  | XNil => k st []
  | XCons e l => then_value (eval e st) (fun st v => eval_list l st (fun st vs => k st (v :: vs)))
  end
with eval_arms (l : arms) (v : value) (st : store) {struct l} : option (store * outcome) :=
  match l with
  | ANil => None
  | ACons p e l =>
    match matches p v with
    | Some (Some vars) => scoped vars st (eval e)
    | Some None => eval_arms l v st
    | None => None
    end
  end
with eval_block (b : block) (st : store) {struct b} : option (store * outcome) :=
  match b with
  | BNil => Some (st, Val VUnit)
  | BTail e => eval e st
  | BLet p ty e b =>
    then_value (eval e st) (fun st v =>
      get v <- typed ty v;
      match matches p v with
      | Some (Some vars) => eval_block b (vars ++ st)
      | _ => None
      end)
  | BStmt e b => then_value (eval e st) (fun st _ => eval_block b st)
  end.

(** A call: the parameters afterwards, and the result. *)
Definition run_function (fn : function) (args : list value) : option (list value * outcome) :=
  if Nat.eqb (List.length args) (List.length (fn_parameters fn)) then
    let st := combine (map fst (fn_parameters fn)) args in
    match scoped [] st (eval_block (fn_body fn)) with
    | Some (st, Val v) | Some (st, Ret v) => Some (map snd st, Val v)
    | Some (st, Panics) => Some (map snd st, Panics)
    | None => None
    end
  else None.
End Eval.
