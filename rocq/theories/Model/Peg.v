(** The parts of the pest parsing library the grammars of src/DataReader/grammars use.
    Texts are lists of bytes.  A parser either fails, or succeeds with a value and the
    text left over.  Failure is [Err]. *)
From Coq Require Import List String Ascii ZArith Bool Arith.
From Verif Require Import Model.Base.
Import ListNotations.

(** edge_grammar.pest and query_grammar.pest: what is parsed. *)
Definition text := list ascii.
Definition txt (s : string) : text := list_ascii_of_string s.
Definition parser (A : Type) := text -> res (A * text).

(** Characters of edge_grammar.pest and query_grammar.pest. *)
Definition ch (n : nat) : ascii := ascii_of_nat n.
Definition in_range (lo hi : nat) (c : ascii) : bool := Nat.leb lo (nat_of_ascii c) && Nat.leb (nat_of_ascii c) hi.
(** pest built-in rules ASCII_ALPHA, ASCII_DIGIT, ASCII_NONZERO_DIGIT, ASCII_ALPHANUMERIC.  edge_grammar.pest, query_grammar.pest. *)
Definition is_alpha (c : ascii) : bool := in_range 65 90 c || in_range 97 122 c.
Definition is_digit (c : ascii) : bool := in_range 48 57 c.
Definition is_nonzero (c : ascii) : bool := in_range 49 57 c.
Definition is_name_char (c : ascii) : bool := is_alpha c || is_digit c || Ascii.eqb c "_".
(** edge_grammar.pest:64, query_grammar.pest:111 [WHITESPACE]. *)
Definition is_blank (c : ascii) : bool := Ascii.eqb c " " || Ascii.eqb c (ch 10) || Ascii.eqb c (ch 9).
Fixpoint skip (s : text) : text :=
  match s with
  | [] => []
  | c :: s' =>
      if is_blank c then skip s'
      else if Ascii.eqb c (ch 13) then match s' with d :: s'' => if Ascii.eqb d (ch 10) then skip s'' else s | [] => s end
      else s
  end.

(** A literal.  edge_grammar.pest, query_grammar.pest. *)
Fixpoint strip (w s : text) : option text :=
  match w, s with
  | [], _ => Some s
  | a :: w', c :: s' => if Ascii.eqb a c then strip w' s' else None
  | _ :: _, [] => None
  end.
Definition lit (w : string) (s : text) : res text := ok_or (strip (txt w) s).

(** Ordered choice.  edge_grammar.pest, query_grammar.pest ([|]). *)
Definition alt {A} (p q : parser A) : parser A := fun s => match p s with Err => q s | r => r end.

(** [(p)*] in a rule with implicit whitespace: whitespace may occur between two matches.  edge_grammar.pest, query_grammar.pest ([*]). *)
Fixpoint many_more {A} (fuel : nat) (p : parser A) (s : text) : res (list A * text) :=
  match fuel with
  | O => NoFuel
  | S f =>
      match p (skip s) with
      | Ok (a, s') => do (l, s'') <- many_more f p s'; Ok (a :: l, s'')
      | Err => Ok ([], s)
      | Panic => Panic
      | NoFuel => NoFuel
      end
  end.
Definition many {A} (fuel : nat) (p : parser A) (s : text) : res (list A * text) :=
  match p s with
  | Ok (a, s') => do (l, s'') <- many_more fuel p s'; Ok (a :: l, s'')
  | Err => Ok ([], s)
  | Panic => Panic
  | NoFuel => NoFuel
  end.

(** edge_grammar.pest, query_grammar.pest (atomic rules). *)
Fixpoint span (p : ascii -> bool) (s : text) : text * text :=
  match s with
  | [] => ([], [])
  | c :: s' => if p c then let (a, b) := span p s' in (c :: a, b) else ([], s)
  end.

(** edge_grammar.pest:54 [variable]. *)
Definition p_name : parser string := fun s =>
  match s with
  | c :: s' => if is_alpha c then let (a, b) := span is_name_char s' in Ok (string_of_list_ascii (c :: a), b) else Err
  | [] => Err
  end.

Definition digit_val (c : ascii) : Z := (Z.of_nat (nat_of_ascii c) - 48)%Z.
Definition dec_val (s : text) : Z := fold_left (fun a c => a * 10 + digit_val c)%Z s 0%Z.
(** edge_grammar.pest:61, query_grammar.pest:88 [int]. *)
Definition p_int : parser Z := fun s =>
  match s with
  | c :: s' =>
      if Ascii.eqb c "0" then Ok (0%Z, s')
      else if is_nonzero c then let (a, b) := span is_digit s' in Ok (dec_val (c :: a), b) else Err
  | [] => Err
  end.
(** [str::parse::<i32>().unwrap()] of such a text.  parse_edge.rs:167-188, parse_queries.rs:82-127. *)
Definition i32_max : Z := 2147483647.
Definition i32_of (k : Z) : res Z := if Z.leb k i32_max then Ok k else Panic.

(** [i32::to_string].  arith_expression.rs:77. *)
Definition digit_char (d : Z) : ascii := ascii_of_nat (48 + Z.to_nat d).
Fixpoint digits_aux (fuel : nat) (n : Z) (acc : text) : text :=
  match fuel with
  | O => acc
  | S f => let acc' := digit_char (n mod 10) :: acc in if Z.ltb n 10 then acc' else digits_aux f (n / 10) acc'
  end.
Definition digits (n : Z) : text := digits_aux (S (Z.to_nat (Z.log2 n))) n [].
Definition int_text (k : Z) : text := if Z.ltb k 0 then "-"%char :: digits (- k) else digits k.

(** pest's [PrattParser] for left-associative infix operators: [expr] and [led] of
    pest/src/pratt_parser.rs.  The operands have been parsed already. *)
Section Pratt.
  Context {O T : Type} (prec : O -> nat) (mk : O -> T -> T -> T).
  Fixpoint pratt (fuel rbp : nat) (lhs : T) (ops : list (O * T)) : res (T * list (O * T)) :=
    match fuel with
    | 0 => NoFuel
    | S f =>
        match ops with
        | [] => Ok (lhs, [])
        | (o, t) :: ops' =>
            if Nat.ltb rbp (prec o) then
              do (rhs, ops'') <- pratt f (prec o) t ops';
              pratt f rbp (mk o lhs rhs) ops''
            else Ok (lhs, ops)
        end
    end.
  Definition pratt_all (x : T) (xs : list (O * T)) : res T := rmap fst (pratt (S (List.length xs)) 0 x xs).
End Pratt.
(** The operands are themselves results of actions which may have panicked.  parse_edge.rs:131-146, 167-188. *)
Definition pratt_res {O T} (prec : O -> nat) (mk : O -> T -> T -> T) (x : res T) (xs : list (O * res T)) : res T :=
  do y <- x;
  do ys <- mapM (fun p => do z <- snd p; Ok (fst p, z)) xs;
  pratt_all prec mk y ys.
