(** Specification of the expression language, independent of the tokenizer and
    of the parsing algorithm: which tokens there are, how they are laid out in a
    string, what a sentence is, which tree it denotes, and which of the possible
    groupings of an ambiguous sentence is the intended one. *)
From Coq Require Import String Ascii NArith.
From Verif Require Import Outcome Num ExprModel.
Open Scope nat_scope.
Open Scope string_scope.

(** ** Tokens *)
Definition digit (c : ascii) : Prop := (48 <= N_of_ascii c <= 57)%N.
Definition letter (c : ascii) : Prop :=
  (65 <= N_of_ascii c <= 90 \/ 97 <= N_of_ascii c <= 122)%N.
Fixpoint all_chars (p : ascii -> Prop) (s : string) : Prop :=
  match s with EmptyString => True | String c t => p c /\ all_chars p t end.

(** A number: digits, an optional fraction, an optional exponent. *)
Definition is_number (t : string) : Prop :=
  exists ip fp ex : string,
    t = ip ++ fp ++ ex /\
    ip <> "" /\ all_chars digit ip /\
    (fp = "" \/ exists d, fp = "." ++ d /\ all_chars digit d) /\
    (ex = "" \/ exists m sg d, ex = m ++ sg ++ d /\ (m = "e" \/ m = "E") /\
                  (sg = "" \/ sg = "+" \/ sg = "-") /\ d <> "" /\ all_chars digit d).

Definition is_word (t : string) : Prop := t <> "" /\ all_chars letter t.

(** Function names, and the names left for variables. *)
Definition fun_name (o : uop) : option string :=
  match o with USin => Some "sin" | UCos => Some "cos" | UExp => Some "exp" | ULog => Some "ln"
             | _ => None end.
Definition is_name (t : string) : Prop := is_word t /\ ~ In t ["sin"; "cos"; "exp"; "ln"].

(** The plus-minus sign U+00B1 in UTF-8. *)
Definition plus_minus : string := String (ascii_of_N 194) (String (ascii_of_N 177) "").
Definition symbols : list string :=
  ["="; "+"; "-"; "*"; "/"; "^"; "{"; "}"; "["; "]"; "("; ")"; ","; ":"; plus_minus].
Definition is_token (t : string) : Prop := is_number t \/ is_word t \/ In t symbols.

Fixpoint spaces (n : nat) : string := match n with 0 => "" | S n => String " " (spaces n) end.
Definition first_is (p : ascii -> Prop) (s : string) : Prop :=
  match s with EmptyString => False | String c _ => p c end.

(** [layout s ts]: the string [s] is the tokens [ts] in order, with any number of
    spaces before, between and after them; a word or number is not cut short
    (what follows it directly could not have continued it). *)
Inductive layout : string -> list string -> Prop :=
| layout_nil n : layout (spaces n) []
| layout_cons n t rest ts :
    is_token t ->
    (is_word t -> ~ first_is letter rest) ->
    (is_number t -> ~ first_is (fun c => digit c \/ In c ["."; "e"; "E"]%char) rest) ->
    layout rest ts ->
    layout (spaces n ++ t ++ rest) (t :: ts).

(** ** Sentences: concrete syntax trees *)
Inductive cst :=
| CNum (t : string)                 (* a number *)
| CVar (t : string)                 (* a variable *)
| CPar (a : cst)                    (* ( a ) *)
| CPos (a : cst)                    (* + a *)
| CNeg (a : cst)                    (* - a *)
| CFun (o : uop) (a : cst)          (* sin a *)
| CBin (o : bop) (l r : cst)        (* l + r,   l [ r ],   l { r } *)
| CArr (es : list cst)              (* [ a , b ] *)
| CDict (d : list (cst * cst)).     (* { k : v , k : v } *)

Definition fun_tok (o : uop) : string := match fun_name o with Some t => t | None => "" end.
(** The token(s) of a binary operator: an infix sign, or brackets around the
    right operand. *)
Definition op_tok (o : bop) : string :=
  match o with BEq => "=" | BAdd => "+" | BSub => "-" | BMul => "*" | BDiv => "/"
             | BPow => "^" | BAcc => "[" | BUnits => "{" | BUnc => plus_minus end.
Definition close_tok (o : bop) : list string :=
  match o with BAcc => ["]"] | BUnits => ["}"] | _ => [] end.
Definition bracketed (o : bop) : bool := match o with BAcc | BUnits => true | _ => false end.

(** Items separated by commas. *)
Fixpoint sep (l : list (list string)) : list string :=
  match l with
  | [] => []
  | [x] => x
  | x :: t => (x ++ "," :: sep t)%list
  end.

(** The tokens of a sentence. *)
Fixpoint tokens (c : cst) : list string :=
  match c with
  | CNum t | CVar t => [t]
  | CPar a => ("(" :: tokens a ++ [")"])%list
  | CPos a => "+" :: tokens a
  | CNeg a => "-" :: tokens a
  | CFun o a => fun_tok o :: tokens a
  | CBin o l r => (tokens l ++ op_tok o :: tokens r ++ close_tok o)%list
  | CArr es => ("[" :: sep (map tokens es) ++ ["]"])%list
  | CDict d => ("{" :: sep (map (fun p => (tokens (fst p) ++ ":" :: tokens (snd p))%list) d) ++ ["}"])%list
  end.

Section Denote.
Context {K : Type} `{EN : ENum K}.
Variable read : string -> K.

(** The map after the assignments d[x] = v, in order. *)
Definition assign (d : list (string * expr K)) (p : string * expr K) : list (string * expr K) :=
  if existsb (fun q => String.eqb (fst p) (fst q)) d
  then map (fun q => if String.eqb (fst p) (fst q) then p else q) d
  else (d ++ [p])%list.

Definition key_name (e : expr K) : string := match e with EVar x => x | _ => "" end.

(** The expression a sentence stands for: parentheses and unary plus leave no
    trace, the negative of a number is a number. *)
Fixpoint denote (c : cst) : expr K :=
  match c with
  | CNum t => EConst (read t)
  | CVar t => EVar t
  | CPar a | CPos a => denote a
  | CNeg a => match denote a with EConst k => EConst (nopp k) | e => EUn UNeg e end
  | CFun o a => EUn o (denote a)
  | CBin o l r => EBin o (denote l) (denote r)
  | CArr es => EArr (map denote es)
  | CDict d => EDict (fold_left assign (map (fun p => (key_name (denote (fst p)), denote (snd p))) d) [])
  end.

(** The leaves are what they should be, and dictionary keys are variables. *)
Fixpoint sentence (c : cst) : Prop :=
  match c with
  | CNum t => is_number t
  | CVar t => is_name t
  | CPar a | CPos a | CNeg a => sentence a
  | CFun o a => fun_name o <> None /\ sentence a
  | CBin o l r => sentence l /\ sentence r
  | CArr es => fold_right (fun c P => sentence c /\ P) True es
  | CDict d => fold_right (fun p P => (sentence (fst p) /\ sentence (snd p) /\
                                       exists x, denote (fst p) = EVar x) /\ P) True d
  end.
End Denote.

(** ** Precedence and associativity *)

(** From loosest to tightest: = ; + and - ; unary + and - ; * and / ; ^ ;
    array access ; units ; the plus-minus operator ; functions.
    ^ and = group to the right, everything else to the left. *)
Definition level (o : bop) : nat :=
  match o with BEq => 1 | BAdd => 2 | BSub => 2 | BMul => 4 | BDiv => 4 | BPow => 5
             | BAcc => 6 | BUnits => 7 | BUnc => 8 end.
Definition sign_level : nat := 3.
Definition fun_level : nat := 9.
Definition groups_right (o : bop) : bool := match o with BPow | BEq => true | _ => false end.

(** The operators whose left operand starts where [c] starts. *)
Fixpoint left_edge (c : cst) : list bop :=
  match c with CBin o l _ => o :: left_edge l | _ => [] end.

(** The operators whose right operand ends where [c] ends: infix operators and
    prefix operators (given by their level). *)
Inductive redge := Infix (o : bop) | Prefix (lv : nat).
Fixpoint right_edge (c : cst) : list redge :=
  match c with
  | CBin o _ r => if bracketed o then [] else Infix o :: right_edge r
  | CPos a | CNeg a => Prefix sign_level :: right_edge a
  | CFun _ a => Prefix fun_level :: right_edge a
  | _ => []
  end.

(** In  ... x a o ...  the operand a belongs to x on its left (rather than to o
    on its right) iff x is tighter, or equally tight and grouping to the left. *)
Definition keeps (x : redge) (o : bop) : Prop :=
  match x with
  | Infix p => level o < level p \/ level o = level p /\ groups_right p = false
  | Prefix lv => level o < lv
  end.
(** In  ... x a o ...  the operand a belongs to o (on its right) iff o is
    tighter, or equally tight and grouping to the right. *)
Definition yields (x : redge) (o : bop) : Prop :=
  match x with
  | Infix p => level p < level o \/ level o = level p /\ groups_right p = true
  | Prefix lv => lv <= level o
  end.

(** A sentence is grouped as precedence and associativity demand: every operator
    at the right edge of a left operand keeps its own operand, and every operator
    at the left edge of a right operand has taken it from the operator on its
    left.  Operands in brackets are grouped on their own. *)
Fixpoint grouped (c : cst) : Prop :=
  match c with
  | CNum _ | CVar _ => True
  | CPar a => grouped a
  | CPos a | CNeg a => grouped a /\ (forall o, In o (left_edge a) -> yields (Prefix sign_level) o)
  | CFun _ a => grouped a /\ (forall o, In o (left_edge a) -> yields (Prefix fun_level) o)
  | CBin o l r =>
      grouped l /\ grouped r /\
      (forall x, In x (right_edge l) -> keeps x o) /\
      (bracketed o = false -> forall p, In p (left_edge r) -> yields (Infix o) p)
  | CArr es => fold_right (fun c P => grouped c /\ P) True es
  | CDict d => fold_right (fun p P => (grouped (fst p) /\ grouped (snd p)) /\ P) True d
  end.

(** The one restriction of the parser beyond grouping: an array access is not
    directly followed by units or plus-minus, and units not by plus-minus (x[1]{m},
    x[1]±y, x{m}±y need parentheses). *)
Fixpoint postfix_ordered (c : cst) : Prop :=
  match c with
  | CNum _ | CVar _ => True
  | CPar a | CPos a | CNeg a | CFun _ a => postfix_ordered a
  | CBin o l r =>
      postfix_ordered l /\ postfix_ordered r /\
      match l with CBin p _ _ => bracketed p = true -> level o <= level p | _ => True end
  | CArr es => fold_right (fun c P => postfix_ordered c /\ P) True es
  | CDict d => fold_right (fun p P => (postfix_ordered (fst p) /\ postfix_ordered (snd p)) /\ P) True d
  end.

(** The same on the tokens: no "]" before "{" or the plus-minus sign, no "}"
    before the plus-minus sign. *)
Fixpoint plain_tokens (ts : list string) : Prop :=
  match ts with
  | t :: (u :: _) as us =>
      ~ (t = "]" /\ (u = "{" \/ u = plus_minus)) /\ ~ (t = "}" /\ u = plus_minus) /\ plain_tokens us
  | _ => True
  end.

(** ** Chains of infix operators *)
Definition infix (o : bop) : Prop := bracketed o = false.
Definition operand (t : string) : Prop := is_number t \/ is_name t.
(** x, o1 y1, o2 y2, ... *)
Definition chain (x : string) (rest : list (bop * string)) : list string :=
  (x :: flat_map (fun p => [op_tok (fst p); snd p]) rest)%list.

(** ** Expressions whose printed form can be read back *)
Section Printable.
Context {K : Type} `{EN : ENum K}.
Variable read : string -> K.
Variable show : K -> string.
Definition is_dictionary (e : expr K) : Prop := match e with EDict _ => True | _ => False end.
Definition is_number_node (e : expr K) : Prop := match e with EConst _ => True | _ => False end.
Definition root_is (o : bop) (e : expr K) : Prop := match e with EBin p _ _ => p = o | _ => False end.

(** A constant that is printed as an unsigned number and read back unchanged. *)
Definition plain_constant (c : K) : Prop := is_number (show c) /\ read (show c) = c.
(** A constant that is printed as "-" and an unsigned number. *)
Definition negative_constant (c : K) : Prop :=
  exists t, show c = "-" ++ t /\ is_number t /\ nopp (read t) = c.

(** Where the printer leaves out the parentheses, when they are not all asked for:
    around the right operand [r] of [o], the left operand [l] of [o], the operand
    of a minus sign. *)
Definition bare_right (o : bop) (r : expr K) : Prop :=
  match r with
  | EBin p _ _ => level o < level p \/ level o = level p /\ groups_right o = true
  | EUn _ _ => False
  | _ => True
  end.
Definition bare_left (o : bop) (l : expr K) : Prop :=
  match l with
  | EBin p _ _ => level o <= level p
  | EUn UNeg _ => level o < sign_level
  | _ => True
  end.
Definition bare_negated (a : expr K) : Prop :=
  match a with EBin p _ _ => sign_level < level p | EUn _ _ => False | _ => True end.

(** The text of [e] ends in a negative number outside all parentheses: as in
    -2, sin -2, x+-2, -x*-2, x^-2. *)
Fixpoint ends_negative (e : expr K) : Prop :=
  match e with
  | EConst c => negative_constant c
  | EUn UNeg a => bare_negated a /\ ends_negative a
  | EUn _ a => is_number_node a /\ ends_negative a
  | EBin o _ r => bracketed o = false /\ bare_right o r /\ ends_negative r
  | _ => False
  end.

(** Expressions that are printed in a form the parser can read: [forced] is the
    option to print all parentheses. *)
Fixpoint writable (e : expr K) : Prop :=
  match e with
  | EConst c => plain_constant c \/ negative_constant c
  | EVar x => is_name x
  | EUn o a => (fun_name o <> None \/ o = UNeg) /\ ~ is_dictionary a /\ writable a
  | EBin o l r => ~ is_dictionary l /\ ~ is_dictionary r /\ writable l /\ writable r
  | EArr es => fold_right (fun a P => writable a /\ P) True es
  | EDict d =>
      NoDup (map fst d) /\
      fold_right (fun p P => (is_name (fst p) /\ writable (snd p)) /\ P) True d
  end.

(** ... and the form that is read is that of [e]: no minus sign in front of a
    number; and, unless all parentheses are printed, no power of a power on the
    left (nor an equation as left side of an equation), and no negative number at
    the end of the left operand of an operator tighter than the sign. *)
Fixpoint faithful (forced : bool) (e : expr K) : Prop :=
  match e with
  | EConst _ | EVar _ => True
  | EUn o a => (o = UNeg -> ~ is_number_node a) /\ faithful forced a
  | EBin o l r =>
      (forced = false -> (groups_right o = true -> ~ root_is o l) /\
                         (sign_level <= level o -> bare_left o l -> ~ ends_negative l)) /\
      faithful forced l /\ faithful forced r
  | EArr es => fold_right (fun a P => faithful forced a /\ P) True es
  | EDict d => fold_right (fun p P => faithful forced (snd p) /\ P) True d
  end.
Definition printable (forced : bool) (e : expr K) : Prop := writable e /\ faithful forced e.
End Printable.

(** ** More vocabulary for the statements *)

(** The byte [c] does not occur. *)
Definition lacks (c : ascii) (s : string) : Prop := all_chars (fun d => d <> c) s.

(** A single token as an expression. *)
Definition stands_for {K} (read : string -> K) (t : string) (e : expr K) : Prop :=
  (is_number t /\ e = EConst (read t)) \/ (is_name t /\ e = EVar t).

(** ** Integers in decimal notation *)
From Coq Require Import Decimal DecimalString DecimalZ ZArith.
(** Decimal notation of an integer, with "-" if negative. *)
Definition decimal (z : Z) : string := NilZero.string_of_int (Z.to_int z).
(** The value of a string of digits. *)
Definition digits_value (t : string) : Z :=
  match NilZero.uint_of_string t with Some d => Z.of_uint d | None => 0%Z end.
