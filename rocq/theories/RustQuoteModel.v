(** Model of the macro [quote!] of crate quote 1.0 (not in /repo), as far as lapex-rust-codegen uses it, and of [str::parse::<TokenStream>].  Definitions only.  The printed
    token streams are represented by their token trees: that the compiler reads the printed text as the same tokens is a property of crate proc_macro2. *)
From Coq Require Import String List Arith NArith Bool.
From Verif Require Import Base TemplateModel TemplateFiles NamesModel RustTokenSpec.
Import ListNotations.
Local Open Scope string_scope.
Local Open Scope list_scope.

(** What a variable of [quote!] stands for: one token stream, or a vector of token streams (lapex-rust-codegen/src/lexer/mod.rs 44-45 and 58). *)
Inductive hole : Type := One (l : list tree) | Many (l : list (list tree)).
(** The name of the vector inside of [#( .. )*] (lexer/mod.rs 147, 154, 172; lr_parser/mod.rs 190, 351-365): the first one that is used there. *)
Fixpoint looped (env : list (string * hole)) (l : list tree) : option (string * list (list tree)) :=
  match l with
  | TPunct "#" :: TId x :: r => match find (fun p => String.eqb x (fst p)) env with Some (_, Many v) => Some (x, v) | _ => looped env r end
  | _ :: r => looped env r
  | [] => None
  end.
(** The token streams with a separator between them, [#( .. ),*] of lr_parser/mod.rs 190. *)
Fixpoint separated (sep : list tree) (l : list (list tree)) : list tree :=
  match l with
  | [] => []
  | [x] => x
  | x :: l => x ++ sep ++ separated sep l
  end.
(** [quote!]: [#x] is replaced, [#( .. )*] and [#( .. ),*] are repeated once for every element of the vector in it, everything else is kept.  [fuel] bounds the depth and the
    length of the quoted code; [None]: it cannot be expanded (the macro does not compile). *)
Fixpoint quote (fuel : nat) (env : list (string * hole)) (l : list tree) : option (list tree) :=
  match fuel with
  | O => None
  | S fuel =>
    let repeated sep body r :=
      match looped env body with
      | Some (x, v) =>
        match fold_right (fun e acc => match quote fuel ((x, One e) :: env) body, acc with Some t, Some acc => Some (t :: acc) | _, _ => None end) (Some []) v, quote fuel env r with
        | Some v, Some r => Some (separated sep v ++ r)
        | _, _ => None
        end
      | None => None
      end in
    match l with
    | [] => Some []
    | TPunct "#" :: TId x :: r =>
      match find (fun p => String.eqb x (fst p)) env, quote fuel env r with
      | Some (_, One t), Some r => Some (t ++ r)
      | _, _ => None
      end
    | TPunct "#" :: TGroup Paren body :: TPunct "*" :: r => repeated [] body r
    | TPunct "#" :: TGroup Paren body :: TPunct "," :: TPunct "*" :: r => repeated [TPunct ","] body r
    | TGroup d body :: r => match quote fuel env body, quote fuel env r with Some body, Some r => Some (TGroup d body :: r) | _, _ => None end
    | t :: r => match quote fuel env r with Some r => Some (t :: r) | None => None end
    end
  end.
(** The quoted code of one macro call, given as its text in /repo (lapex-rust-codegen/src/lexer/mod.rs 50-186). *)
Definition quoted (code : string) : list tree := match trees (chars code) with Some l => l | None => [] end.
(** A call of the macro; the fuel is more than the number of tokens (lexer/mod.rs 50-186). *)
Definition quote_of (code : list tree) (env : list (string * hole)) : option (list tree) := quote 400 env code.
(** [usize] and [u32] as tokens (lexer/mod.rs 50-54, 62, 68): literals with a suffix. *)
Definition usize_token (n : nat) : hole := One [TInt (N.of_nat n) "usize"].
(** lexer/mod.rs 50-54. *)
Definition u32_token (n : N) : hole := One [TInt n "u32"].
(** [.parse().unwrap()] of lexer/mod.rs 27 and 78. *)
Definition stream_of (s : string) : option (list tree) := trees (chars s).
