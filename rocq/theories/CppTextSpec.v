(** A small part of C++, used to read and run the text of emitted code: tokens, statements and expressions, what a compiler
    checks about switches, and what the statements do.  Nothing here depends on the code generators.
    Of C++ there is what the emitted functions use: integers of fixed size, scoped enumerations, structures, vectors, switches with
    fall-through, loops.  Types of expressions are not checked, but a program with an ill-typed step does not run. *)
From Coq Require Import String Ascii List Arith NArith ZArith Bool.
From Verif Require Import Base TemplateModel.
Import ListNotations.
Local Open Scope string_scope.
Local Open Scope list_scope.

(** ** Tokens *)

(** Punctuation and operators. *)
Inductive mark : Type :=
| LBrace | RBrace | LParen | RParen | LBracket | RBracket | Semi | Comma | Colon | Scope | Dot | Arrow | Dots | Assign | Equals | PlusAssign | Plus
| Incr | Minus | Amp | Star | Slash | Less | Greater | Lesses | Greaters | OrAssign | XorAssign | RightAssign | OtherMark.
(** Keywords of statements and expressions. *)
Inductive keyword : Type := Switch | Case | Default | Break | Return | While | If | Else | For | This | StaticCast | Nullptr | True_ | False_ | Enum | Class | Struct.
(** Tokens.  A number is a decimal one. *)
Inductive tok : Type :=
| Word (w : string)
| Num (n : Z)
| Odd (w : string)     (* a word that starts with a digit and is not a decimal number *)
| Quoted (s : string)
| Mark (m : mark)
| Key (k : keyword).

(** Operators are the longest possible.  [..] is no operator, but the beginning of one. *)
Definition marks : list (string * mark) :=
  [("{", LBrace); ("}", RBrace); ("(", LParen); (")", RParen); ("[", LBracket); ("]", RBracket); (";", Semi); (",", Comma); (":", Colon); ("::", Scope); (".", Dot);
   ("->", Arrow); ("...", Dots); ("=", Assign); ("==", Equals); ("+=", PlusAssign); ("+", Plus); ("++", Incr); ("-", Minus); ("&", Amp); ("*", Star); ("/", Slash);
   ("<", Less); (">", Greater); ("..", OtherMark); ("--", OtherMark); ("-=", OtherMark); ("*=", OtherMark); ("/=", OtherMark); ("&&", OtherMark); ("||", OtherMark);
   ("|", OtherMark); ("|=", OrAssign); ("&=", OtherMark); ("^", OtherMark); ("^=", XorAssign); ("<<", Lesses); ("<<=", OtherMark); (">>", Greaters); (">>=", RightAssign);
   ("!", OtherMark); ("!=", OtherMark); ("<=", OtherMark); (">=", OtherMark); ("%", OtherMark); ("%=", OtherMark); ("?", OtherMark); ("~", OtherMark)].
Definition keywords : list (string * keyword) :=
  [("switch", Switch); ("case", Case); ("default", Default); ("break", Break); ("return", Return); ("while", While); ("if", If); ("else", Else); ("for", For); ("this", This);
   ("static_cast", StaticCast); ("nullptr", Nullptr); ("true", True_); ("false", False_); ("enum", Enum); ("class", Class); ("struct", Struct)].
Fixpoint find_name {A} (w : string) (l : list (string * A)) : option A :=
  match l with
  | [] => None
  | (v, a) :: l => if String.eqb w v then Some a else find_name w l
  end.

Definition digit (c : ascii) : bool := let n := N_of_ascii c in ((48 <=? n) && (n <=? 57))%N.
(** The value of a word of digits without superfluous zeros. *)
Fixpoint digits_value (acc : Z) (w : string) : option Z :=
  match w with
  | EmptyString => Some acc
  | String c w => if digit c then digits_value (10 * acc + Z.of_N (N_of_ascii c - 48)) w else None
  end.
Definition number (w : string) : option Z :=
  match w with
  | EmptyString => None
  | String c EmptyString => digits_value 0 w
  | String c _ => if Ascii.eqb c "0" then None else digits_value 0 w
  end.
(** The token of a word. *)
Definition word_token (w : string) : tok :=
  match find_name w keywords with
  | Some k => Key k
  | None =>
    match w with
    | String c _ => if digit c then match number w with Some n => Num n | None => Odd w end else Word w
    | EmptyString => Word w
    end
  end.
Definition mark_token (w : string) : tok := match find_name w marks with Some m => Mark m | None => Mark OtherMark end.

(** Where the reader is.  A comment to the end of the line goes on if the line ends in a backslash; a directive is treated like such a comment. *)
Inductive mode : Type :=
| Blank
| InWord (w : string)
| InQuote (s : string)
| InMark (w : string)
| InLine (escaped : bool)
| InBlock (star : bool).
Definition word_char (c : N) : bool := (((48 <=? c) && (c <=? 57)) || ((65 <=? c) && (c <=? 90)) || ((97 <=? c) && (c <=? 122)) || (c =? 95))%N.
Definition space_char (c : N) : bool := ((c =? 32) || (c =? 9) || (c =? 10) || (c =? 13))%N.
Definition one (c : N) : string := String (ascii_of_N c) EmptyString.
(** Only ASCII outside comments. *)
Definition begin_token (c : N) : option mode :=
  if space_char c then Some Blank
  else if word_char c then Some (InWord (one c))
  else if (c =? 34)%N then Some (InQuote "")
  else if (c =? 35)%N then Some (InLine false)
  else if (c <? 128)%N then match find_name (one c) marks with Some _ => Some (InMark (one c)) | None => None end
  else None.
Definition also (l : list tok) (m : option mode) : option (list tok * mode) := match m with Some m => Some (l, m) | None => None end.
Definition scan_char (m : mode) (c : N) : option (list tok * mode) :=
  match m with
  | Blank => also [] (begin_token c)
  | InWord w => if word_char c then Some ([], InWord (w ++ one c)) else also [word_token w] (begin_token c)
  | InQuote s =>
    if (c =? 34)%N then Some ([Quoted s], Blank)
    else if ((c =? 10) || (c =? 92) || (128 <=? c))%N then None
    else Some ([], InQuote (s ++ one c))
  | InMark w =>
    if String.eqb w "/" && (c =? 47)%N then Some ([], InLine false)
    else if String.eqb w "/" && (c =? 42)%N then Some ([], InBlock false)
    else if (c <? 128)%N && match find_name (w ++ one c) marks with Some _ => true | None => false end then Some ([], InMark (w ++ one c))
    else also [mark_token w] (begin_token c)
  | InLine escaped => if (c =? 10)%N then Some ([], if escaped then InLine false else Blank) else Some ([], InLine (c =? 92)%N)
  | InBlock star => if (star && (c =? 47)%N)%bool then Some ([], Blank) else Some ([], InBlock (c =? 42)%N)
  end.
Fixpoint scan (m : mode) (t : text) : option (list tok * mode) :=
  match t with
  | [] => Some ([], m)
  | c :: t =>
    match scan_char m c with
    | None => None
    | Some (l, m) => match scan m t with Some (l', m') => Some (l ++ l', m') | None => None end
    end
  end.
(** The tokens of a text. *)
Definition tokens (t : text) : option (list tok) :=
  match scan Blank t with
  | Some (l, Blank) | Some (l, InLine _) => Some l
  | Some (l, InWord w) => Some (l ++ [word_token w])
  | Some (l, InMark w) => Some (l ++ [mark_token w])
  | _ => None
  end.

(** ** Syntax *)

Definition path := list string.
Inductive expr : Type :=
| ENum (n : Z)
| EBool (b : bool)
| EStr (s : string)
| ENull
| EThis
| EName (p : path)
| EField (e : expr) (f : string)     (* e.f *)
| EArrow (e : expr) (f : string)     (* e->f *)
| ECall (f : expr) (args : list expr)
| ECast (t : path) (e : expr)
| ENeg (e : expr)
| EAddr (e : expr)
| EEq (a b : expr)
| ELess (a b : expr)
| ESub (a b : expr)
| EInc (e : expr).
(** A block, or the body of a switch, is a sequence of statements and labels. *)
Inductive stmt : Type :=
| SDecl (t : path) (x : string)                    (* T x; *)
| SLet (t : path) (x : string) (e : expr)          (* T x = e; *)
| SInit (t : path) (x : string) (args : list expr) (* T x{a, b}; *)
| SAssign (a e : expr)
| SAdd (a e : expr)
| SExpr (e : expr)
| SBreak
| SReturn (e : option expr)
| SBlock (b : items)
| SSwitch (e : expr) (b : items)
| SWhile (e : expr) (s : stmt)
| SIf (e : expr) (s : stmt) (t : option stmt)
| SFor (t : path) (x : string) (e c i : expr) (s : stmt)
with items : Type :=
| INil
| ICase (lo hi : expr) (b : items)    (* a label [case lo:] has [lo] twice; [case lo ... hi:] is an extension of GNU *)
| IDefault (b : items)
| IStmt (s : stmt) (b : items).

Definition parsed (A : Type) := option (A * list tok).
Notation "'get' ( x , r ) <- e ; f" := (match e with Some (x, r) => f | None => None end) (at level 200, x pattern, r pattern, e at level 100, f at level 200).

(** [a::b::c]. *)
Fixpoint parse_scopes (ts : list tok) : path * list tok :=
  match ts with
  | Mark Scope :: Word w :: ts => let '(p, r) := parse_scopes ts in (w :: p, r)
  | _ => ([], ts)
  end.
Definition parse_path (ts : list tok) : parsed path :=
  match ts with
  | Word w :: ts => let '(p, r) := parse_scopes ts in Some (w :: p, r)
  | _ => None
  end.

(** [A, b::C<D>>]: the rest of the arguments of a template; they are not interpreted. *)
Fixpoint skip_arguments (depth : nat) (ts : list tok) : option (list tok) :=
  match ts, depth with
  | Mark Less :: ts, _ => skip_arguments (S depth) ts
  | Mark Greater :: ts, 1 | Mark Greaters :: ts, 2 => Some ts
  | Mark Greater :: ts, S (S depth) => skip_arguments (S depth) ts
  | Mark Greaters :: ts, S (S (S depth)) => skip_arguments (S depth) ts
  | (Word _ | Mark Scope | Mark Comma) :: ts, _ => skip_arguments depth ts
  | _, _ => None
  end.

(** Recursive descent; the fuel bounds the depth.  There is one operator in an expression at most. *)
Fixpoint parse_expr (fuel : nat) (ts : list tok) : parsed expr :=
  match fuel with
  | O => None
  | S fuel =>
    get (a, r) <- parse_unary fuel ts;
    match r with
    | Mark Equals :: r => get (b, r) <- parse_unary fuel r; Some (EEq a b, r)
    | Mark Less :: r => get (b, r) <- parse_unary fuel r; Some (ELess a b, r)
    | Mark Greater :: r => get (b, r) <- parse_unary fuel r; Some (ELess b a, r)
    | Mark Minus :: r => get (b, r) <- parse_unary fuel r; Some (ESub a b, r)
    | _ => Some (a, r)
    end
  end
with parse_unary (fuel : nat) (ts : list tok) : parsed expr :=
  match fuel with
  | O => None
  | S fuel =>
    match ts with
    | Mark Minus :: r => get (a, r) <- parse_unary fuel r; Some (ENeg a, r)
    | Mark Amp :: r => get (a, r) <- parse_unary fuel r; Some (EAddr a, r)
    | Num n :: r => parse_postfix fuel (ENum n) r
    | Quoted s :: r => parse_postfix fuel (EStr s) r
    | Key This :: r => parse_postfix fuel EThis r
    | Key Nullptr :: r => parse_postfix fuel ENull r
    | Key True_ :: r => parse_postfix fuel (EBool true) r
    | Key False_ :: r => parse_postfix fuel (EBool false) r
    | Key StaticCast :: Mark Less :: r =>
      get (t, r) <- parse_path r;
      match r with
      | Mark Greater :: Mark LParen :: r =>
        get (a, r) <- parse_expr fuel r;
        match r with Mark RParen :: r => parse_postfix fuel (ECast t a) r | _ => None end
      | _ => None
      end
    | Word _ :: _ => get (p, r) <- parse_path ts; parse_postfix fuel (EName p) r
    | _ => None
    end
  end
with parse_postfix (fuel : nat) (a : expr) (ts : list tok) : parsed expr :=
  match fuel with
  | O => None
  | S fuel =>
    match ts with
    | Mark Dot :: Word f :: r => parse_postfix fuel (EField a f) r
    | Mark Arrow :: Word f :: r => parse_postfix fuel (EArrow a f) r
    | Mark Incr :: r => parse_postfix fuel (EInc a) r
    | Mark LParen :: Mark RParen :: r => parse_postfix fuel (ECall a []) r
    | Mark LParen :: r =>
      get (args, r) <- parse_args fuel r;
      match r with Mark RParen :: r => parse_postfix fuel (ECall a args) r | _ => None end
    | _ => Some (a, ts)
    end
  end
with parse_args (fuel : nat) (ts : list tok) : parsed (list expr) :=
  match fuel with
  | O => None
  | S fuel =>
    get (a, r) <- parse_expr fuel ts;
    match r with
    | Mark Comma :: r => get (args, r) <- parse_args fuel r; Some (a :: args, r)
    | _ => Some ([a], r)
    end
  end.

(** [e;], [e = e;], [e += e;]. *)
Definition parse_simple (fuel : nat) (ts : list tok) : parsed stmt :=
  get (a, r) <- parse_expr fuel ts;
  match r with
  | Mark Semi :: r => Some (SExpr a, r)
  | Mark Assign :: r => get (b, r) <- parse_expr fuel r; match r with Mark Semi :: r => Some (SAssign a b, r) | _ => None end
  | Mark PlusAssign :: r => get (b, r) <- parse_expr fuel r; match r with Mark Semi :: r => Some (SAdd a b, r) | _ => None end
  | _ => None
  end.
(** [T x;], [T x = e;], [T x{..};]: a type and a name. *)
Definition parse_decl (fuel : nat) (t : path) (x : string) (ts : list tok) : parsed stmt :=
  match ts with
  | Mark Semi :: r => Some (SDecl t x, r)
  | Mark Assign :: r => get (a, r) <- parse_expr fuel r; match r with Mark Semi :: r => Some (SLet t x a, r) | _ => None end
  | Mark LBrace :: r => get (args, r) <- parse_args fuel r; match r with Mark RBrace :: Mark Semi :: r => Some (SInit t x args, r) | _ => None end
  | _ => None
  end.
Definition parse_paren (fuel : nat) (ts : list tok) : parsed expr :=
  match ts with
  | Mark LParen :: r => get (a, r) <- parse_expr fuel r; match r with Mark RParen :: r => Some (a, r) | _ => None end
  | _ => None
  end.

(** Statements.  The sequence ends in front of a closing brace; a label must not be last. *)
Fixpoint parse_stmt (fuel : nat) (ts : list tok) : parsed stmt :=
  match fuel with
  | O => None
  | S fuel =>
    match ts with
    | Mark LBrace :: r => get (b, r) <- parse_items fuel r; match r with Mark RBrace :: r => Some (SBlock b, r) | _ => None end
    | Key Switch :: r =>
      get (a, r) <- parse_paren fuel r;
      match r with
      | Mark LBrace :: r => get (b, r) <- parse_items fuel r; match r with Mark RBrace :: r => Some (SSwitch a b, r) | _ => None end
      | _ => None
      end
    | Key While :: r => get (a, r) <- parse_paren fuel r; get (s, r) <- parse_stmt fuel r; Some (SWhile a s, r)
    | Key If :: r =>
      get (a, r) <- parse_paren fuel r;
      get (s, r) <- parse_stmt fuel r;
      match r with
      | Key Else :: r => get (t, r) <- parse_stmt fuel r; Some (SIf a s (Some t), r)
      | _ => Some (SIf a s None, r)
      end
    | Key For :: Mark LParen :: r =>
      get (t, r) <- parse_path r;
      match r with
      | Word x :: Mark Assign :: r =>
        get (e, r) <- parse_expr fuel r;
        match r with
        | Mark Semi :: r =>
          get (c, r) <- parse_expr fuel r;
          match r with
          | Mark Semi :: r =>
            get (i, r) <- parse_expr fuel r;
            match r with
            | Mark RParen :: r => get (s, r) <- parse_stmt fuel r; Some (SFor t x e c i s, r)
            | _ => None
            end
          | _ => None
          end
        | _ => None
        end
      | _ => None
      end
    | Key Break :: Mark Semi :: r => Some (SBreak, r)
    | Key Return :: Mark Semi :: r => Some (SReturn None, r)
    | Key Return :: r => get (a, r) <- parse_expr fuel r; match r with Mark Semi :: r => Some (SReturn (Some a), r) | _ => None end
    | _ =>
      match parse_path ts with
      | Some (t, Word x :: r) => parse_decl fuel t x r
      | Some (t, Mark Less :: r) => match skip_arguments 1 r with Some (Word x :: r) => parse_decl fuel t x r | _ => parse_simple fuel ts end
      | _ => parse_simple fuel ts
      end
    end
  end
with parse_items (fuel : nat) (ts : list tok) : parsed items :=
  match fuel with
  | O => None
  | S fuel =>
    match ts with
    | Mark RBrace :: _ => Some (INil, ts)
    | Key Case :: r =>
      get (a, r) <- parse_expr fuel r;
      match r with
      | Mark Colon :: r => get (b, r) <- parse_labelled fuel r; Some (ICase a a b, r)
      | Mark Dots :: r =>
        get (c, r) <- parse_expr fuel r;
        match r with Mark Colon :: r => get (b, r) <- parse_labelled fuel r; Some (ICase a c b, r) | _ => None end
      | _ => None
      end
    | Key Default :: Mark Colon :: r => get (b, r) <- parse_labelled fuel r; Some (IDefault b, r)
    | _ => get (s, r) <- parse_stmt fuel ts; get (b, r) <- parse_items fuel r; Some (IStmt s b, r)
    end
  end
with parse_labelled (fuel : nat) (ts : list tok) : parsed items :=
  match fuel with
  | O => None
  | S fuel => match ts with Mark RBrace :: _ => None | _ => parse_items fuel ts end
  end.

(** Something holds with enough fuel. *)
Definition eventually (P : nat -> Prop) : Prop := exists n, forall fuel, n <= fuel -> P fuel.

(** The tokens behind the first occurrence of some tokens. *)
Definition tok_eq (a b : tok) : bool :=
  match a, b with
  | Word v, Word w | Odd v, Odd w | Quoted v, Quoted w => String.eqb v w
  | Num n, Num m => Z.eqb n m
  | Mark m, Mark n => if (ltac:(decide equality) : {m = n} + {m <> n}) then true else false
  | Key k, Key l => if (ltac:(decide equality) : {k = l} + {k <> l}) then true else false
  | _, _ => false
  end.
Fixpoint strip_tokens (p ts : list tok) : option (list tok) :=
  match p, ts with
  | [], _ => Some ts
  | a :: p, b :: ts => if tok_eq a b then strip_tokens p ts else None
  | _ :: _, [] => None
  end.
Fixpoint behind (p ts : list tok) : option (list tok) :=
  match strip_tokens p ts with
  | Some r => Some r
  | None => match ts with [] => None | _ :: ts => behind p ts end
  end.

(** The text [t] defines a function with header [h] and body [b]. *)
Definition defines (t h : text) (b : stmt) : Prop :=
  exists ts hs r, tokens t = Some ts /\ tokens h = Some hs /\ behind hs ts = Some r /\ eventually (fun fuel => exists r', parse_stmt fuel r = Some (b, r')).

(** Enumerators of [enum class E : T { A, B = 1, };], with values. *)
Fixpoint parse_enumerators (next : Z) (ts : list tok) : option (list (string * Z)) :=
  match ts with
  | Mark RBrace :: Mark Semi :: _ => Some []
  | Word w :: Mark Assign :: Num n :: Mark Comma :: r => match parse_enumerators (n + 1) r with Some l => Some ((w, n) :: l) | None => None end
  | Word w :: Mark Comma :: r => match parse_enumerators (next + 1) r with Some l => Some ((w, next) :: l) | None => None end
  | Word w :: Mark RBrace :: Mark Semi :: _ => Some [(w, next)]
  | _ => None
  end.
(** A parameter: its type, its name, and whether it is a reference to something that can be written. *)
Record param : Type := mkParam { p_type : path; p_name : string; p_ref : bool }.
(** [T x], [T &x], [const T &x]. *)
Definition parse_param (ts : list tok) : parsed param :=
  let '(const, ts) := match ts with Word "const" :: ts => (true, ts) | _ => (false, ts) end in
  get (t, r) <- parse_path ts;
  match match r with Mark Less :: r => skip_arguments 1 r | _ => Some r end with
  | Some (Mark Amp :: Word x :: r) => Some (mkParam t x (negb const), r)
  | Some (Word x :: r) => Some (mkParam t x false, r)
  | _ => None
  end.
Fixpoint parse_params (fuel : nat) (ts : list tok) : option (list param) :=
  match fuel with
  | O => None
  | S fuel =>
    get (p, r) <- parse_param ts;
    match r with
    | Mark Comma :: r => match parse_params fuel r with Some l => Some (p :: l) | None => None end
    | [Mark RParen] => Some [p]
    | _ => None
    end
  end.
(** The name and the parameters in the first line [T f(..)] of a function. *)
Definition signature (h : text) : option (string * list param) :=
  match tokens h with
  | Some ts =>
    match parse_path ts with
    | Some (_, Word f :: Mark LParen :: r) => match parse_params (List.length r) r with Some l => Some (f, l) | None => None end
    | _ => None
    end
  | None => None
  end.
(** Fields of [struct S { T a; U b; };]. *)
Fixpoint parse_fields (ts : list tok) : option (list (string * string)) :=
  match ts with
  | Mark RBrace :: Mark Semi :: _ => Some []
  | Word t :: Word f :: Mark Semi :: r => match parse_fields r with Some l => Some ((t, f) :: l) | None => None end
  | _ => None
  end.
Definition struct_in (t : text) (s : string) (l : list (string * string)) : Prop :=
  exists ts r, tokens t = Some ts /\ behind [Key Struct; Word s; Mark LBrace] ts = Some r /\ parse_fields r = Some l.

(** ** Values *)

(** Integers of fixed size. *)
Inductive ity : Type := I8 | I32 | I64 | U8 | U16 | U32 | U64 | Bool.
Definition int_types : list (string * ity) := [("char", I8); ("int", I32); ("uint8_t", U8); ("uint16_t", U16); ("uint32_t", U32); ("size_t", U64); ("bool", Bool)].
Definition wrap (t : ity) (z : Z) : Z :=
  (match t with
   | I8 => (z + 128) mod 256 - 128
   | I32 => (z + 2147483648) mod 4294967296 - 2147483648
   | I64 => (z + 9223372036854775808) mod 18446744073709551616 - 9223372036854775808
   | U8 => z mod 256
   | U16 => z mod 65536
   | U32 => z mod 4294967296
   | U64 => z mod 18446744073709551616
   | Bool => if z =? 0 then 0 else 1
   end)%Z.
(** The text [t] defines an enumeration [e]: the names are distinct, the values are of its type. *)
Definition enum_in (t : text) (e base : string) (l : list (string * Z)) : Prop :=
  exists ts r, tokens t = Some ts /\ behind [Key Enum; Key Class; Word e; Mark Colon; Word base; Mark LBrace] ts = Some r /\ parse_enumerators 0 r = Some l /\
  NoDup (map fst l) /\ exists i, find_name base int_types = Some i /\ forall z, In z (map snd l) -> wrap i z = z.

(** Integral promotion and the usual arithmetic conversions. *)
Definition promoted (t : ity) : ity := match t with Bool | I8 | U8 | U16 => I32 | _ => t end.
Definition common (a b : ity) : ity :=
  match promoted a, promoted b with
  | U64, _ | _, U64 => U64
  | I64, _ | _, I64 => I64
  | U32, _ | _, U32 => U32
  | _, _ => I32
  end.

Inductive value : Type :=
| VInt (t : ity) (z : Z)
| VEnum (e : string) (z : Z)
| VStr (s : string)
| VNull
| VRec (s : string) (fields : list (string * value))
| VVec (l : list value)       (* a vector or queue; the first is its last element *)
| VStream (bytes : list N)
| VNone (t : string).         (* not initialised *)

(** The enumerations, structures and functions of a program. *)
Record program : Type := mkProgram { enums : list (string * list (string * Z)); structs : list (string * list (string * string)); functions : list (string * (list param * stmt)) }.
(** Local variables, the latest first; members of [this]. *)
Record store : Type := mkStore { locals : list (string * value); members : list (string * value) }.

Definition type_name (p : path) : option string :=
  match p with
  | [t] => Some t
  | [ns; t] => if String.eqb ns "lexer" || String.eqb ns "parser" then Some t else None
  | _ => None
  end.
(** Conversion to a type at an initialisation or assignment. *)
Definition convert (t : string) (v : value) : option value :=
  match find_name t int_types, v with
  | Some i, VInt _ z => Some (VInt i (wrap i z))
  | None, VEnum e _ => if String.eqb e t then Some v else None
  | None, VRec s _ => if String.eqb s t then Some v else None
  | _, _ => None
  end.
Definition type_of (v : value) : option string :=
  match v with
  | VInt I8 _ => Some "char" | VInt I32 _ => Some "int" | VInt U8 _ => Some "uint8_t" | VInt U16 _ => Some "uint16_t" | VInt U32 _ => Some "uint32_t" | VInt U64 _ => Some "size_t" | VInt Bool _ => Some "bool"
  | VEnum e _ => Some e | VRec s _ => Some s | VNone t => Some t
  | _ => None
  end.
(** An initialisation with braces does not narrow. *)
Definition exact (t : string) (v : value) : option value :=
  match convert t v, v with
  | Some (VInt i z), VInt _ z' => if Z.eqb z z' then Some (VInt i z) else None
  | r, _ => r
  end.
Definition truth (v : value) : option bool := match v with VInt _ z => Some (negb (Z.eqb z 0)) | _ => None end.
Definition same (a b : value) : option bool :=
  match a, b with
  | VInt s x, VInt t y => Some (Z.eqb (wrap (common s t) x) (wrap (common s t) y))
  | VEnum e x, VEnum f y => if String.eqb e f then Some (Z.eqb x y) else None
  | _, _ => None
  end.
Definition less (a b : value) : option bool :=
  match a, b with
  | VInt s x, VInt t y => Some (Z.ltb (wrap (common s t) x) (wrap (common s t) y))
  | _, _ => None
  end.
Definition the_bool (b : option bool) : option value := match b with Some b => Some (VInt Bool (if b then 1 else 0)%Z) | None => None end.

(** [E::A], possibly with a namespace in front. *)
Definition enumerator_value (P : program) (p : path) : option value :=
  match rev p with
  | a :: e :: ns =>
    match ns with
    | [] | ["lexer"] | ["parser"] =>
      match find_name e (enums P) with
      | Some l => match find_name a l with Some z => Some (VEnum e z) | None => None end
      | None => None
      end
    | _ => None
    end
  | _ => None
  end.
Definition literal (n : Z) : value := if (n <? 2147483648)%Z then VInt I32 n else VInt I64 n.

Fixpoint eval (P : program) (st : store) (e : expr) : option value :=
  match e with
  | ENum n => Some (literal n)
  | EBool b => Some (VInt Bool (if b then 1 else 0)%Z)
  | EStr s => Some (VStr s)
  | ENull => Some VNull
  | EName [x] => match find_name x (locals st) with Some v => Some v | None => find_name x (members st) end
  | EName p => enumerator_value P p
  | EArrow EThis f => find_name f (members st)
  | EField a f => match eval P st a with Some (VRec _ fs) => find_name f fs | _ => None end
  | ECall (EField a "back") [] => match eval P st a with Some (VVec (v :: _)) => Some v | _ => None end
  | ECall (EField a "front") [] => match eval P st a with Some (VVec l) => nth_error l (List.length l - 1) | _ => None end
  | ECall (EField a "size") [] => match eval P st a with Some (VVec l) => Some (VInt U64 (Z.of_nat (List.length l))) | _ => None end
  | ECall (EField a "at") [i] =>
    match eval P st a, eval P st i with
    | Some (VVec l), Some (VInt U64 k) => if (k <? Z.of_nat (List.length l))%Z then nth_error l (List.length l - 1 - Z.to_nat k) else None
    | _, _ => None
    end
  | ECast t a =>
    match type_name t, eval P st a with
    | Some t, Some (VInt _ z) =>
      match find_name t int_types with
      | Some i => Some (VInt i (wrap i z))
      | None => match find_name t (enums P) with Some _ => Some (VEnum t (wrap U32 z)) | None => None end
      end
    | Some t, Some (VEnum _ z) => match find_name t int_types with Some i => Some (VInt i (wrap i z)) | None => None end
    | _, _ => None
    end
  | ENeg a => match eval P st a with Some (VInt I32 z) => Some (VInt I32 (wrap I32 (- z))) | _ => None end
  | EEq a b => match eval P st a, eval P st b with Some v, Some w => the_bool (same v w) | _, _ => None end
  | ELess a b => match eval P st a, eval P st b with Some v, Some w => the_bool (less v w) | _, _ => None end
  | ESub a b =>
    match eval P st a, eval P st b with
    | Some (VInt s x), Some (VInt t y) => Some (VInt (common s t) (wrap (common s t) (x - y)))
    | _, _ => None
    end
  | _ => None
  end.

(** ** What a compiler checks about switches *)

(** The labels of a switch are constants of one type, and no value has two; there is one default label at most. *)
Inductive bounds : Type := Between (e : option string) (lo hi : Z).
Definition label_bounds (P : program) (lo hi : expr) : option bounds :=
  match eval P (mkStore [] []) lo, eval P (mkStore [] []) hi with
  | Some (VInt _ a), Some (VInt _ b) => if ((0 <=? a) && (a <=? b) && (b <? 4294967296))%Z then Some (Between None a b) else None
  | Some (VEnum e a), Some (VEnum f b) => if String.eqb e f && (a =? b)%Z then Some (Between (Some e) a b) else None
  | _, _ => None
  end.
Definition apart (a b : bounds) : bool :=
  match a, b with
  | Between None a b, Between None c d => ((b <? c) || (d <? a))%Z
  | Between (Some e) a _, Between (Some f) c _ => String.eqb e f && negb (a =? c)%Z
  | _, _ => false
  end.
Fixpoint labels (P : program) (b : items) : option (list bounds * nat) :=
  match b with
  | INil => Some ([], 0)
  | ICase lo hi b => match label_bounds P lo hi, labels P b with Some x, Some (l, n) => if forallb (apart x) l then Some (x :: l, n) else None | _, _ => None end
  | IDefault b => match labels P b with Some (l, n) => Some (l, S n) | None => None end
  | IStmt s b => labels P b
  end.
(** No declarations beside labels. *)
Fixpoint no_decls (b : items) : bool :=
  match b with
  | INil => true
  | ICase _ _ b | IDefault b => no_decls b
  | IStmt (SDecl _ _) _ | IStmt (SLet _ _ _) _ | IStmt (SInit _ _ _) _ => false
  | IStmt _ b => no_decls b
  end.
(** Enumerators exist; [std::terminate] is no enumerator. *)
Fixpoint names_ok (P : program) (e : expr) : bool :=
  match e with
  | EName [_] => true
  | EName ["std"; "terminate"] => true
  | EName p => match enumerator_value P p with Some _ => true | None => false end
  | EField a _ | EArrow a _ | ECast _ a | ENeg a | EAddr a | EInc a => names_ok P a
  | ECall f args => names_ok P f && forallb (names_ok P) args
  | EEq a b | ELess a b | ESub a b => names_ok P a && names_ok P b
  | _ => true
  end.
(** The fields of a structure and literals for them. *)
Fixpoint args_fit (P : program) (fs : list (string * string)) (args : list expr) : bool :=
  match fs, args with
  | [], [] => true
  | (t, _) :: fs, ENum n :: args => match exact t (literal n) with Some _ => args_fit P fs args | None => false end
  | _ :: fs, _ :: args => args_fit P fs args
  | _, _ => false
  end.
Fixpoint checks (P : program) (s : stmt) : bool :=
  match s with
  | SDecl _ _ | SBreak | SReturn None => true
  | SLet _ _ e | SExpr e | SReturn (Some e) => names_ok P e
  | SInit t _ args =>
    forallb (names_ok P) args && match type_name t with Some t => match find_name t (structs P) with Some fs => args_fit P fs args | None => false end | None => false end
  | SAssign a e | SAdd a e => names_ok P a && names_ok P e
  | SBlock b => checks_items P b && match labels P b with Some ([], 0) => true | _ => false end
  | SSwitch e b => names_ok P e && no_decls b && checks_items P b && match labels P b with Some (_, n) => Nat.leb n 1 | None => false end
  | SWhile e s => names_ok P e && checks P s
  | SIf e s t => names_ok P e && checks P s && match t with Some t => checks P t | None => true end
  | SFor _ _ e c i s => names_ok P e && names_ok P c && names_ok P i && checks P s
  end
with checks_items (P : program) (b : items) : bool :=
  match b with
  | INil => true
  | ICase _ _ b | IDefault b => checks_items P b
  | IStmt s b => checks P s && checks_items P b
  end.

(** ** Running statements *)

Inductive result : Type :=
| RNext
| RBreak
| RReturn (v : option value)
| RTerminate
| RThrow (s : string).

Fixpoint set_name (x : string) (v : value) (l : list (string * value)) : list (string * value) :=
  match l with
  | [] => []
  | (y, w) :: l => if String.eqb x y then (y, v) :: l else (y, w) :: set_name x v l
  end.
(** Writing a variable or member, without and with conversion to its type. *)
Definition put (st : store) (a : expr) (v : value) : option store :=
  match a with
  | EName [x] =>
    match find_name x (locals st), find_name x (members st) with
    | Some _, _ => Some (mkStore (set_name x v (locals st)) (members st))
    | None, Some _ => Some (mkStore (locals st) (set_name x v (members st)))
    | None, None => None
    end
  | EArrow EThis f => match find_name f (members st) with Some _ => Some (mkStore (locals st) (set_name f v (members st))) | None => None end
  | _ => None
  end.
Definition assign (P : program) (st : store) (a : expr) (v : value) : option store :=
  match eval P st a with
  | Some old =>
    match type_of old with
    | Some t => match convert t v with Some v => put st a v | None => None end
    | None => None
    end
  | None => None
  end.
Definition add_to (P : program) (st : store) (a : expr) (v : value) : option store :=
  match eval P st a, v with
  | Some (VInt s x), VInt t y => assign P st a (VInt (common s t) (wrap (common s t) (x + y)))
  | _, _ => None
  end.
Definition declare (st : store) (x : string) (v : value) : store := mkStore ((x, v) :: locals st) (members st).
Fixpoint init_fields (P : program) (st : store) (fs : list (string * string)) (args : list expr) : option (list (string * value)) :=
  match fs, args with
  | [], [] => Some []
  | (t, f) :: fs, a :: args =>
    match eval P st a with
    | Some v => match exact t v, init_fields P st fs args with Some v, Some l => Some ((f, v) :: l) | _, _ => None end
    | None => None
    end
  | _, _ => None
  end.
(** Leaving a block: the variables declared in it are gone. *)
Definition leave (outer : store) (st : store) : store := mkStore (skipn (List.length (locals st) - List.length (locals outer)) (locals st)) (members st).

(** Whether a label has a value of the type of the switch, and which. *)
Definition in_label (P : program) (v : value) (lo hi : expr) : option bool :=
  match v, label_bounds P lo hi with
  | VInt _ z, Some (Between None a b) => Some ((a <=? z) && (z <=? b))%Z
  | VEnum e z, Some (Between (Some f) a _) => if String.eqb e f then Some (z =? a)%Z else None
  | _, _ => None
  end.
(** The statements behind the label of a value, or behind the default label; none if there is neither. *)
Fixpoint at_case (P : program) (v : value) (b : items) : option (option items) :=
  match b with
  | INil => Some None
  | ICase lo hi b => match in_label P v lo hi with Some true => Some (Some b) | Some false => at_case P v b | None => None end
  | IDefault b | IStmt _ b => at_case P v b
  end.
Fixpoint at_default (b : items) : option items :=
  match b with
  | INil => None
  | IDefault b => Some b
  | ICase _ _ b | IStmt _ b => at_default b
  end.
Definition selected (P : program) (v : value) (b : items) : option items :=
  match at_case P v b with
  | None => None
  | Some (Some c) => Some c
  | Some None => match at_default b with Some c => Some c | None => Some INil end
  end.

(** Calls of functions that are not part of the text: what they do to the store, given the expressions that are the arguments, and what they return. *)
Definition externals := store -> expr -> list expr -> option (store * result).
(** Methods of vectors and queues that change nothing. *)
Definition looks (f : expr) : bool :=
  match f with EField _ m => String.eqb m "back" || String.eqb m "front" || String.eqb m "size" || String.eqb m "at" | _ => false end.
(** The values of parameters, converted to their types; vectors and other objects are passed as they are. *)
Definition passed (t : path) (v : value) : option value :=
  match v, type_name t with
  | VInt _ _, Some t | VEnum _ _, Some t | VRec _ _, Some t => convert t v
  | VVec _, _ => Some v
  | _, _ => None
  end.
Fixpoint pass (P : program) (st : store) (ps : list param) (args : list expr) : option (list (string * value)) :=
  match ps, args with
  | [], [] => Some []
  | p :: ps, a :: args =>
    match eval P st a with
    | Some v => match passed (p_type p) v, pass P st ps args with Some v, Some l => Some ((p_name p, v) :: l) | _, _ => None end
    | None => None
    end
  | _, _ => None
  end.
(** What a function did to the references is done to the arguments. *)
Fixpoint pass_back (inner : list (string * value)) (ps : list param) (args : list expr) (st : store) : option store :=
  match ps, args with
  | [], [] => Some st
  | p :: ps, a :: args =>
    if p_ref p then
      match find_name (p_name p) inner with
      | Some v => match put st a v with Some st => pass_back inner ps args st | None => None end
      | None => None
      end
    else pass_back inner ps args st
  | _, _ => None
  end.

(** A statement: the store after it and how it ends; [None] if it does something undefined, ill-typed, or unknown. *)
Fixpoint exec (fuel : nat) (P : program) (ext : externals) (st : store) (s : stmt) : option (store * result) :=
  match fuel with
  | O => None
  | S fuel =>
    match s with
    | SDecl ["std"; "vector"] x | SDecl ["std"; "queue"] x => Some (declare st x (VVec []), RNext)
    | SDecl t x => match type_name t with Some t => Some (declare st x (VNone t), RNext) | None => None end
    | SLet t x e =>
      match exec_value fuel P ext st e with
      | Some (st, RReturn (Some v)) =>
        match type_name t with
        | Some t => match (if String.eqb t "auto" then Some v else convert t v) with Some v => Some (declare st x v, RNext) | None => None end
        | None => None
        end
      | Some (st, RReturn None) => None
      | r => r
      end
    | SInit t x args =>
      match type_name t with
      | Some t =>
        match find_name t (structs P) with
        | Some fs => match init_fields P st fs args with Some l => Some (declare st x (VRec t l), RNext) | None => None end
        | None => None
        end
      | None => None
      end
    | SAssign a e =>
      match eval P st e with
      | Some v => match assign P st a v with Some st => Some (st, RNext) | None => None end
      | None => None
      end
    | SAdd a e =>
      match eval P st e with
      | Some v => match add_to P st a v with Some st => Some (st, RNext) | None => None end
      | None => None
      end
    | SExpr (ECall f args) => match exec_call fuel P ext st f args with Some (st, RReturn _) => Some (st, RNext) | r => r end
    | SExpr (EInc a) => match add_to P st a (VInt I32 1) with Some st => Some (st, RNext) | None => None end
    | SExpr _ => None
    | SBreak => Some (st, RBreak)
    | SReturn None => Some (st, RReturn None)
    | SReturn (Some e) => match eval P st e with Some (VNone _) | None => None | Some v => Some (st, RReturn (Some v)) end
    | SBlock b => match exec_items fuel P ext st b with Some (st', r) => Some (leave st st', r) | None => None end
    | SSwitch e b =>
      match eval P st e with
      | Some v =>
        match selected P v b with
        | Some c =>
          match exec_items fuel P ext st c with
          | Some (st', RBreak) => Some (leave st st', RNext)
          | Some (st', r) => Some (leave st st', r)
          | None => None
          end
        | None => None
        end
      | None => None
      end
    | SWhile e s' =>
      match eval P st e with
      | Some v =>
        match truth v with
        | Some true =>
          match exec fuel P ext st s' with
          | Some (st', RNext) => exec fuel P ext st' s
          | Some (st', RBreak) => Some (st', RNext)
          | r => r
          end
        | Some false => Some (st, RNext)
        | None => None
        end
      | None => None
      end
    | SIf e s t =>
      match eval P st e with
      | Some v =>
        match truth v with
        | Some true => exec fuel P ext st s
        | Some false => match t with Some t => exec fuel P ext st t | None => Some (st, RNext) end
        | None => None
        end
      | None => None
      end
    | SFor t x e c i s =>
      match exec fuel P ext st (SLet t x e) with
      | Some (st', RNext) =>
        match exec fuel P ext st' (SWhile c (SBlock (IStmt s (IStmt (SExpr i) INil)))) with
        | Some (st'', r) => Some (leave st st'', r)
        | None => None
        end
      | _ => None
      end
    end
  end
with exec_items (fuel : nat) (P : program) (ext : externals) (st : store) (b : items) : option (store * result) :=
  match fuel with
  | O => None
  | S fuel =>
    match b with
    | INil => Some (st, RNext)
    | ICase _ _ b | IDefault b => exec_items fuel P ext st b
    | IStmt s b =>
      match exec fuel P ext st s with
      | Some (st, RNext) => exec_items fuel P ext st b
      | r => r
      end
    end
  end
(** The value of an expression that may be a call: [RReturn (Some v)]. *)
with exec_value (fuel : nat) (P : program) (ext : externals) (st : store) (e : expr) : option (store * result) :=
  match fuel with
  | O => None
  | S fuel =>
    match e with
    | ECall f args => if looks f then match eval P st e with Some v => Some (st, RReturn (Some v)) | None => None end else exec_call fuel P ext st f args
    | _ => match eval P st e with Some v => Some (st, RReturn (Some v)) | None => None end
    end
  end
with exec_call (fuel : nat) (P : program) (ext : externals) (st : store) (f : expr) (args : list expr) : option (store * result) :=
  match fuel with
  | O => None
  | S fuel =>
    match f, args with
    | EName ["std"; "terminate"], [] => Some (st, RTerminate)
    | EField (EName [x]) "pop_back", [] =>
      match eval P st (EName [x]) with
      | Some (VVec (_ :: l)) => match put st (EName [x]) (VVec l) with Some st => Some (st, RReturn None) | None => None end
      | _ => None
      end
    | EField (EName [x]) "pop", [] =>
      match eval P st (EName [x]) with
      | Some (VVec (v :: l)) => match put st (EName [x]) (VVec (removelast (v :: l))) with Some st => Some (st, RReturn None) | None => None end
      | _ => None
      end
    | EField (EName [x]) "push_back", [a] | EField (EName [x]) "push", [a] =>
      match exec_value fuel P ext st a with
      | Some (st, RReturn (Some v)) =>
        match eval P st (EName [x]) with
        | Some (VVec l) => match put st (EName [x]) (VVec (v :: l)) with Some st => Some (st, RReturn None) | None => None end
        | _ => None
        end
      | Some (st, RReturn None) => None
      | r => r
      end
    | EName [g], _ =>
      match find_name g (functions P) with
      | Some (ps, body) =>
        match pass P st ps args with
        | Some l =>
          match exec fuel P ext (mkStore l (members st)) body with
          | Some (inner, r) =>
            match pass_back (locals inner) ps args (mkStore (locals st) (members inner)) with
            | Some st => Some (st, match r with RNext => RReturn None | _ => r end)
            | None => None
            end
          | None => None
          end
        | None => None
        end
      | None => ext st f args
      end
    | _, _ => ext st f args
    end
  end.

(** With enough fuel, the statement takes the store to another one and ends like that. *)
Definition does (P : program) (ext : externals) (st : store) (s : stmt) (st' : store) (r : result) : Prop :=
  eventually (fun fuel => exec fuel P ext st s = Some (st', r)).
