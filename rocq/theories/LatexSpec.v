(** What TeX accepts as a formula, for the commands that occur here.
    Independent of the model. *)
From Coq Require Import String Ascii NArith List.
From Verif Require Import Num ExprModel ParserSpec.
Import ListNotations.
Open Scope nat_scope.
Open Scope string_scope.

(** ** Tokens: characters, \words (a blank after a word is skipped), \symbols *)
Inductive ltok := Ch (c : ascii) | CW (w : string) | CS (c : ascii).
Inductive mode := Normal | Esc | Word (w : string).
Definition is_letter (c : ascii) : bool :=
  let n := N_of_ascii c in ((N.leb 65 n && N.leb n 90) || (N.leb 97 n && N.leb n 122))%bool.
Definition backslash : ascii := "\".
Definition lex1 (m : mode) (c : ascii) : list ltok * mode :=
  match m with
  | Normal => if Ascii.eqb c backslash then ([], Esc) else ([Ch c], Normal)
  | Esc => if is_letter c then ([], Word (String c "")) else ([CS c], Normal)
  | Word w =>
      if is_letter c then ([], Word (w ++ String c ""))
      else if Ascii.eqb c " " then ([CW w], Normal)
      else if Ascii.eqb c backslash then ([CW w], Esc)
      else ([CW w; Ch c], Normal)
  end.
Fixpoint lex (m : mode) (s : string) : list ltok * mode :=
  match s with
  | "" => ([], m)
  | String c t => let (a, m1) := lex1 m c in let (b, m2) := lex m1 t in ((a ++ b)%list, m2)
  end.
(** The tokens of a whole text (a lone backslash at the end is an unknown command). *)
Definition ltokens (s : string) : list ltok :=
  let (ts, m) := lex Normal s in
  (ts ++ match m with Normal => [] | Esc => [CW ""] | Word w => [CW w] end)%list.

(** ** Formulas *)
(** Characters with no special meaning in a formula. *)
Definition ordinary (c : ascii) : Prop :=
  ~ In c ["\"; "{"; "}"; "$"; "&"; "#"; "^"; "_"; "%"; "~"; " "]%char.
(** Commands without arguments. *)
Definition commands : list string := ["sin"; "cos"; "ln"; "times"; "pm"].
(** What may follow \left and \right. *)
Definition delimiters : list ltok := [Ch "("; Ch ")"; Ch "["; Ch "]"; Ch "|"; CS "{"; CS "}"]%char.

(** [formula b ts b']: TeX reads [ts] as a piece of a formula.  [b] and [b'] say
    whether the last thing before, and at the end, already has a superscript
    (a second one is an error: "Double superscript"). *)
Inductive formula : bool -> list ltok -> bool -> Prop :=
| F_end b : formula b [] b
| F_blank b ts b' : formula b ts b' -> formula b (Ch " " :: ts) b'
| F_char b c ts b' : ordinary c -> formula false ts b' -> formula b (Ch c :: ts) b'
| F_command b w ts b' : In w commands -> formula false ts b' -> formula b (CW w :: ts) b'
| F_group b a x ts b' : formula false a x -> formula false ts b' ->
    formula b (Ch "{" :: a ++ Ch "}" :: ts) b'
| F_mathrm b a x ts b' : formula false a x -> formula false ts b' ->
    formula b (CW "mathrm" :: Ch "{" :: a ++ Ch "}" :: ts) b'
| F_frac b n x d y ts b' : formula false n x -> formula false d y -> formula false ts b' ->
    formula b (CW "frac" :: Ch "{" :: n ++ Ch "}" :: Ch "{" :: d ++ Ch "}" :: ts) b'
| F_left_right b d1 a x d2 ts b' : In d1 delimiters -> In d2 delimiters -> formula false a x -> formula false ts b' ->
    formula b (CW "left" :: d1 :: a ++ CW "right" :: d2 :: ts) b'
| F_superscript a x ts b' : formula false a x -> formula true ts b' ->
    formula false (Ch "^" :: Ch "{" :: a ++ Ch "}" :: ts) b'.

Definition tex_accepts (s : string) : Prop := exists b, formula false (ltokens s) b.

(** ** Numbers as printf("%g") writes them *)
Definition mantissa (m : string) : Prop :=
  m <> "" /\ all_chars (fun c => digit c \/ c = "." \/ c = "-")%char m.
Definition exponent_digits (d : string) : Prop := all_chars digit d.
(** m, m e+dd or m e-dd *)
Inductive g_format : string -> Prop :=
| g_plain m : mantissa m -> g_format m
| g_plus m d : mantissa m -> exponent_digits d -> g_format (m ++ "e+" ++ d)
| g_minus m d : mantissa m -> exponent_digits d -> g_format (m ++ "e-" ++ d).

(** ** Expressions whose LaTeX form is accepted *)
Section Fine.
Context {K : Type}.
Variable show : K -> string.
Definition exponent_number (e : expr K) : Prop := match e with EConst c => ~ mantissa (show c) | _ => False end.
(** The LaTeX form ends in a superscript: a power, an exponential, a number with
    an exponent, or such a number as last operand. *)
Definition superscripted (e : expr K) : Prop :=
  match e with
  | EBin BPow _ _ | EUn UExp _ => True
  | EUn (USin | UCos) a => exponent_number a
  | EBin BUnc _ r => exponent_number r
  | e => exponent_number e
  end.

Definition is_variable (e : expr K) : Prop := match e with EVar _ => True | _ => False end.

(** [forced]: the option to write all parentheses. *)
Fixpoint fine (forced : bool) (e : expr K) : Prop :=
  match e with
  | EConst c => g_format (show c)
  | EVar x => is_word x
  | EUn o a => o <> ULog /\ ~ is_dictionary a /\ fine forced a
  | EBin o l r =>
      ~ is_dictionary l /\ ~ is_dictionary r /\ fine forced l /\ fine forced r /\
      (o = BPow -> forced = false -> ~ superscripted l) /\
      (o = BUnc -> forced = false -> ~ is_variable r)
  | EArr es => fold_right (fun a P => fine forced a /\ P) True es
  | EDict d => fold_right (fun p P => (is_word (fst p) /\ fine forced (snd p)) /\ P) True d
  end.

(** The leaves are numbers and words, dictionaries are not operands. *)
Fixpoint leaves (e : expr K) : Prop :=
  match e with
  | EConst c => g_format (show c)
  | EVar x => is_word x
  | EUn o a => ~ is_dictionary a /\ leaves a
  | EBin o l r => ~ is_dictionary l /\ ~ is_dictionary r /\ leaves l /\ leaves r
  | EArr es => fold_right (fun a P => leaves a /\ P) True es
  | EDict d => fold_right (fun p P => (is_word (fst p) /\ leaves (snd p)) /\ P) True d
  end.
Fixpoint contains_ln (e : expr K) : Prop :=
  match e with
  | EConst _ | EVar _ => False
  | EUn o a => o = ULog \/ contains_ln a
  | EBin _ l r => contains_ln l \/ contains_ln r
  | EArr es => fold_right (fun a P => contains_ln a \/ P) False es
  | EDict d => fold_right (fun p P => contains_ln (snd p) \/ P) False d
  end.
End Fine.
