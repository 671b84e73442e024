(** The part of C++ that works on memory and bits, used to read and run the text of [utf8_decode]: arrays, pointers, casts and the operators on integers with
    their precedence, and the reading of bytes from a stream.  The tokens are those of CppTextSpec.v.  A step that is undefined or depends on the
    implementation, such as an index out of bounds or a shift of a negative number, has no result. *)
From Coq Require Import String Ascii List Arith NArith ZArith Bool.
From Verif Require Import Base TemplateModel CppTextSpec.
Import ListNotations.
Local Open Scope string_scope.
Local Open Scope list_scope.

(** ** Syntax *)

Inductive bop : Type := BMul | BAdd | BSub | BLeft | BRight | BLess | BGreater | BEqual | BAnd | BXor | BOr.
Inductive bexpr : Type :=
| BNum (n : Z)
| BVar (x : string)
| BAt (p : bexpr)                    (* *p *)
| BIndex (p i : bexpr)               (* p[i] *)
| BCast (t : ity) (e : bexpr)        (* (T)e *)
| BView (t : ity) (e : bexpr)        (* (T * )e *)
| BBin (o : bop) (a b : bexpr).
Inductive bstmt : Type :=
| DArray (t : ity) (x : string) (size : option Z) (init : list Z)  (* T x[n] = {..}; *)
| DPointer (t : ity) (x : string) (e : bexpr)                      (* T *x = e; *)
| DScalar (t : ity) (x : string) (e : bexpr)                       (* T x = e; *)
| BRead (stream : string) (p n : bexpr)                            (* stream.read(p, n); *)
| BSet (a e : bexpr)
| BUpdate (o : bop) (a e : bexpr).

(** Hexadecimal numbers. *)
Definition hex_digit (c : ascii) : option Z :=
  let n := Z.of_N (N_of_ascii c) in
  (if (48 <=? n) && (n <=? 57) then Some (n - 48) else if (97 <=? n) && (n <=? 102) then Some (n - 87) else if (65 <=? n) && (n <=? 70) then Some (n - 55) else None)%Z.
Fixpoint hex_value (acc : Z) (w : string) : option Z :=
  match w with
  | EmptyString => Some acc
  | String c w => match hex_digit c with Some d => hex_value (16 * acc + d) w | None => None end
  end.
Definition hexadecimal (w : string) : option Z :=
  match w with
  | String "0" (String "x" (String c w)) => hex_value 0 (String c w)
  | _ => None
  end.
Definition int_type (w : string) : option ity := find_name w int_types.

(** Operators from weak to strong; all of them associate to the left. *)
Definition operator (level : nat) (m : mark) : option bop :=
  match level, m with
  | 0, Amp => Some BAnd
  | 1, Equals => Some BEqual
  | 2, Less => Some BLess
  | 2, Greater => Some BGreater
  | 3, Lesses => Some BLeft
  | 3, Greaters => Some BRight
  | 4, Plus => Some BAdd
  | 4, Minus => Some BSub
  | 5, Star => Some BMul
  | _, _ => None
  end.
Fixpoint parse_bits (fuel level : nat) (ts : list tok) : parsed bexpr :=
  match fuel with
  | O => None
  | S fuel =>
    if Nat.ltb level 6 then get (a, r) <- parse_bits fuel (S level) ts; parse_more fuel level a r
    else
      match ts with
      | Mark Star :: r => get (a, r) <- parse_bits fuel 6 r; Some (BAt a, r)
      | Num n :: r => Some (BNum n, r)
      | Odd w :: r => match hexadecimal w with Some n => Some (BNum n, r) | None => None end
      | Word x :: r => parse_index fuel (BVar x) r
      | Mark LParen :: Word w :: r =>
        match int_type w, r with
        | Some t, Mark RParen :: r => get (a, r) <- parse_bits fuel 6 r; Some (BCast t a, r)
        | Some t, Mark Star :: Mark RParen :: r => get (a, r) <- parse_bits fuel 6 r; Some (BView t a, r)
        | Some _, _ => None
        | None, _ => get (a, r) <- parse_bits fuel 0 (Word w :: r); match r with Mark RParen :: r => parse_index fuel a r | _ => None end
        end
      | Mark LParen :: r => get (a, r) <- parse_bits fuel 0 r; match r with Mark RParen :: r => parse_index fuel a r | _ => None end
      | _ => None
      end
  end
with parse_more (fuel level : nat) (a : bexpr) (ts : list tok) : parsed bexpr :=
  match fuel with
  | O => None
  | S fuel =>
    match ts with
    | Mark m :: r =>
      match operator level m with
      | Some o => get (b, r) <- parse_bits fuel (S level) r; parse_more fuel level (BBin o a b) r
      | None => Some (a, ts)
      end
    | _ => Some (a, ts)
    end
  end
with parse_index (fuel : nat) (a : bexpr) (ts : list tok) : parsed bexpr :=
  match fuel with
  | O => None
  | S fuel =>
    match ts with
    | Mark LBracket :: r => get (i, r) <- parse_bits fuel 0 r; match r with Mark RBracket :: r => parse_index fuel (BIndex a i) r | _ => None end
    | _ => Some (a, ts)
    end
  end.

(** Numbers between braces. *)
Fixpoint parse_numbers (ts : list tok) : parsed (list Z) :=
  match ts with
  | Num n :: Mark Comma :: r => get (l, r) <- parse_numbers r; Some (n :: l, r)
  | Num n :: Mark RBrace :: r => Some ([n], r)
  | Odd w :: Mark Comma :: r => match hexadecimal w with Some n => get (l, r) <- parse_numbers r; Some (n :: l, r) | None => None end
  | Odd w :: Mark RBrace :: r => match hexadecimal w with Some n => Some ([n], r) | None => None end
  | _ => None
  end.
Definition ended {A} (p : parsed A) : parsed A := match p with Some (a, Mark Semi :: r) => Some (a, r) | _ => None end.
(** A declaration behind its type. *)
Definition parse_local (fuel : nat) (t : ity) (ts : list tok) : parsed bstmt :=
  match ts with
  | Mark Star :: Word x :: Mark Assign :: r => get (e, r) <- ended (parse_bits fuel 0 r); Some (DPointer t x e, r)
  | Word x :: Mark Assign :: r => get (e, r) <- ended (parse_bits fuel 0 r); Some (DScalar t x e, r)
  | Word x :: Mark LBracket :: Mark RBracket :: Mark Assign :: Mark LBrace :: r => get (l, r) <- ended (parse_numbers r); Some (DArray t x None l, r)
  | Word x :: Mark LBracket :: Num n :: Mark RBracket :: Mark Assign :: Mark LBrace :: r => get (l, r) <- ended (parse_numbers r); Some (DArray t x (Some n) l, r)
  | _ => None
  end.
Definition update_operator (m : mark) : option bop := match m with OrAssign => Some BOr | XorAssign => Some BXor | RightAssign => Some BRight | _ => None end.
Definition parse_step (fuel : nat) (ts : list tok) : parsed bstmt :=
  match ts with
  | Word "static" :: Word "const" :: Word w :: r => match int_type w with Some t => parse_local fuel t r | None => None end
  | Word x :: Mark Dot :: Word "read" :: Mark LParen :: r =>
    get (p, r) <- parse_bits fuel 0 r;
    match r with
    | Mark Comma :: r => get (n, r) <- parse_bits fuel 0 r; match r with Mark RParen :: Mark Semi :: r => Some (BRead x p n, r) | _ => None end
    | _ => None
    end
  | Word w :: r => match int_type w with Some t => parse_local fuel t r | None => None end
  | _ =>
    get (a, r) <- parse_bits fuel 6 ts;
    match r with
    | Mark Assign :: r => get (e, r) <- ended (parse_bits fuel 0 r); Some (BSet a e, r)
    | Mark m :: r => match update_operator m with Some o => get (e, r) <- ended (parse_bits fuel 0 r); Some (BUpdate o a e, r) | None => None end
    | _ => None
    end
  end.
(** The steps up to the closing brace. *)
Fixpoint parse_steps (fuel : nat) (ts : list tok) : parsed (list bstmt) :=
  match fuel with
  | O => None
  | S fuel =>
    match ts with
    | Mark RBrace :: r => Some ([], r)
    | _ => get (s, r) <- parse_step fuel ts; get (l, r) <- parse_steps fuel r; Some (s :: l, r)
    end
  end.
(** The text [t] defines a function with header [h] and these steps. *)
Definition has_steps (t h : text) (l : list bstmt) : Prop :=
  exists ts hs r, tokens t = Some ts /\ tokens h = Some hs /\ behind (hs ++ [Mark LBrace]) ts = Some r /\ eventually (fun fuel => exists r', parse_steps fuel r = Some (l, r')).

(** ** Memory *)

(** What a name stands for: an array, or a single object, which is an array of one element; a pointer to an element of an array; a stream. *)
Inductive object : Type :=
| OArray (t : ity) (cells : list Z)
| OPointer (t : ity) (target : string) (index : Z)
| OStream (bytes : list N).
Definition memory := list (string * object).
Inductive bvalue : Type :=
| WInt (t : ity) (z : Z)
| WPointer (t : ity) (target : string) (index : Z).

Definition cell (l : list Z) (i : Z) : option Z := if (i <? 0)%Z then None else nth_error l (Z.to_nat i).
Fixpoint set_nth (n : nat) (z : Z) (l : list Z) : option (list Z) :=
  match n, l with
  | O, _ :: l => Some (z :: l)
  | S n, a :: l => option_map (cons a) (set_nth n z l)
  | _, [] => None
  end.
Definition set_cell (l : list Z) (i z : Z) : option (list Z) := if (i <? 0)%Z then None else set_nth (Z.to_nat i) z l.
Fixpoint set_object (x : string) (o : object) (m : memory) : memory :=
  match m with
  | [] => []
  | (y, p) :: m => if String.eqb x y then (y, o) :: m else (y, p) :: set_object x o m
  end.
(** The element a pointer points to, through a pointer to the type of the element, or of the bytes of characters. *)
Definition sees (view t : ity) : bool := match view, t with I8, I8 | U8, U8 | U8, I8 | I32, I32 | U32, U32 => true | _, _ => false end.
Definition load (m : memory) (view : ity) (x : string) (i : Z) : option bvalue :=
  match find_name x m with
  | Some (OArray t l) => if sees view t then match cell l i with Some z => Some (WInt view (wrap view z)) | None => None end else None
  | _ => None
  end.
Definition save (m : memory) (view : ity) (x : string) (i z : Z) : option memory :=
  match find_name x m with
  | Some (OArray t l) => if sees view t then match set_cell l i (wrap t z) with Some l => Some (set_object x (OArray t l) m) | None => None end else None
  | _ => None
  end.

(** ** Expressions *)

Definition in_range (t : ity) (z : Z) : bool := Z.eqb (wrap t z) z.
Definition unsigned (t : ity) : bool := match t with U8 | U16 | U32 | U64 => true | _ => false end.
Definition width (t : ity) : Z := match t with I64 | U64 => 64 | _ => 32 end.
(** A result of arithmetic: it wraps around if the type has no sign, and must be in the range of the type otherwise. *)
Definition computed (t : ity) (z : Z) : option bvalue := if unsigned t then Some (WInt t (wrap t z)) else if in_range t z then Some (WInt t z) else None.
Definition arithmetic (o : bop) (s : ity) (x : Z) (t : ity) (y : Z) : option bvalue :=
  let c := common s t in
  let a := wrap c x in
  let b := wrap c y in
  match o with
  | BMul => computed c (a * b)
  | BAdd => computed c (a + b)
  | BSub => computed c (a - b)
  | BAnd => computed c (Z.land a b)
  | BXor => computed c (Z.lxor a b)
  | BOr => computed c (Z.lor a b)
  | BLess => Some (WInt Bool (if a <? b then 1 else 0))
  | BGreater => Some (WInt Bool (if b <? a then 1 else 0))
  | BEqual => Some (WInt Bool (if a =? b then 1 else 0))
  | BLeft | BRight =>
    (* the type of a shift is that of its left side *)
    if (y <? 0) || (width (promoted s) <=? y) || (x <? 0) then None
    else computed (promoted s) (match o with BLeft => Z.shiftl x y | _ => Z.shiftr x y end)
  end%Z.
Definition binary (o : bop) (a b : bvalue) : option bvalue :=
  match a, b with
  | WInt s x, WInt t y => arithmetic o s x t y
  | WPointer t x i, WInt _ k => match o with BAdd => Some (WPointer t x (i + k)%Z) | _ => None end
  | _, _ => None
  end.
(** The value of an expression; an array stands for the pointer to its first element. *)
Fixpoint value_of (m : memory) (e : bexpr) : option bvalue :=
  match e with
  | BNum n => if in_range I32 n then Some (WInt I32 n) else None
  | BVar x =>
    match find_name x m with
    | Some (OArray t [z]) => Some (WInt t z)
    | Some (OArray t _) => Some (WPointer t x 0)
    | Some (OPointer t y i) => Some (WPointer t y i)
    | _ => None
    end
  | BAt p => match value_of m p with Some (WPointer t x i) => load m t x i | _ => None end
  | BIndex p i => match value_of m p, value_of m i with Some (WPointer t x k), Some (WInt _ j) => load m t x (k + j)%Z | _, _ => None end
  | BCast t e => match value_of m e with Some (WInt _ z) => Some (WInt t (wrap t z)) | _ => None end
  | BView t e => match value_of m e with Some (WPointer _ x i) => Some (WPointer t x i) | _ => None end
  | BBin o a b => match value_of m a, value_of m b with Some v, Some w => binary o v w | _, _ => None end
  end.

(** ** Steps *)

(** The elements of an array with some given first: the others are zero, and there is one at least. *)
Definition filled (t : ity) (size : option Z) (init : list Z) : option (list Z) :=
  let n := match size with Some n => Z.to_nat n | None => List.length init end in
  if Nat.ltb 1 n && Nat.leb (List.length init) n && forallb (in_range t) init then Some (init ++ repeat 0%Z (n - List.length init)) else None.
(** Bytes written through a pointer to characters. *)
Fixpoint save_bytes (m : memory) (x : string) (i : Z) (bytes : list N) : option memory :=
  match bytes with
  | [] => Some m
  | b :: bytes => match save m I8 x i (Z.of_N b) with Some m => save_bytes m x (i + 1)%Z bytes | None => None end
  end.
Definition written (m : memory) (a : bexpr) (z : Z) : option memory :=
  match a with
  | BAt p => match value_of m p with Some (WPointer t x i) => save m t x i z | _ => None end
  | _ => None
  end.
Definition step (m : memory) (s : bstmt) : option memory :=
  match s with
  | DArray t x size init => match filled t size init with Some l => Some ((x, OArray t l) :: m) | None => None end
  | DPointer t x e => match value_of m e with Some (WPointer u y i) => if match t, u with U8, U8 | I8, I8 | U32, U32 | I32, I32 => true | _, _ => false end then Some ((x, OPointer t y i) :: m) else None | _ => None end
  | DScalar t x e => match value_of m e with Some (WInt _ z) => Some ((x, OArray t [wrap t z]) :: m) | _ => None end
  | BRead x p n =>
    match find_name x m, value_of m p, value_of m n with
    | Some (OStream bytes), Some (WPointer I8 y i), Some (WInt _ k) =>
      if (k <? 0)%Z then None
      else match save_bytes m y i (firstn (Z.to_nat k) bytes) with Some m => Some (set_object x (OStream (skipn (Z.to_nat k) bytes)) m) | None => None end
    | _, _, _ => None
    end
  | BSet a e => match value_of m e with Some (WInt _ z) => written m a z | _ => None end
  | BUpdate o a e =>
    match value_of m a, value_of m e with
    | Some v, Some w => match binary o v w with Some (WInt _ z) => written m a z | _ => None end
    | _, _ => None
    end
  end.
Fixpoint steps (m : memory) (l : list bstmt) : option memory :=
  match l with
  | [] => Some m
  | s :: l => match step m s with Some m => steps m l | None => None end
  end.
