(* The parser combinators of nom 3.2 used by the crate, and the text functions of the standard library it uses.
   nom is an external dependency (Cargo.toml:24); this file is its contract, stated as functions on byte strings.
   A byte string is a list of ascii values; the amount of missing input that Incomplete carries is dropped. *)
From Coq Require Export Ascii String NArith Decimal DecimalN.
From Verif Require Import Base.
Open Scope list_scope.

Notation bytes := (list ascii).
Notation "'«' s '»'" := (list_ascii_of_string s%string) (s at level 0, format "'«' s '»'").

(* IResult, with the additional outcome of a panic inside a parser *)
Inductive presult (X : Type) := Done (rest : bytes) (x : X) | Error | Incomplete | Panic.
Arguments Done {X}. Arguments Error {X}. Arguments Incomplete {X}. Arguments Panic {X}.
Notation parser X := (bytes -> presult X).

(* do_parse!: x: p >> q *)
Definition pbind {X Y : Type} (p : parser X) (q : X -> parser Y) : parser Y :=
  fun i => match p i with Done r x => q x r | Error => Error | Incomplete => Incomplete | Panic => Panic end.
Definition pret {X : Type} (x : X) : parser X := fun i => Done i x.
Notation "'do' x <- p ; q" := (pbind p (fun x => q)) (at level 200, x name, p at level 100, q at level 200).
Notation "'skip' p ; q" := (pbind p (fun _ => q)) (at level 200, p at level 100, q at level 200).

Definition beqb (a b : ascii) : bool := Ascii.eqb a b.

(* tag!: Incomplete if the input ends inside the tag *)
Fixpoint tag (t : bytes) : parser unit :=
  fun i => match t with
  | [] => Done i tt
  | b :: t => match i with
              | [] => Incomplete
              | a :: i => if beqb a b then tag t i else Error
              end
  end.
(* the longest prefix of bytes satisfying f, and the rest *)
Fixpoint span (f : ascii -> bool) (i : bytes) : bytes * bytes :=
  match i with
  | [] => ([], [])
  | a :: i' => if f a then let (x, r) := span f i' in (a :: x, r) else ([], i)
  end.
(* take_while! *)
Definition take_while (f : ascii -> bool) : parser bytes := fun i => let (x, r) := span f i in Done r x.
(* take_while1! *)
Definition take_while1 (f : ascii -> bool) : parser bytes :=
  fun i => match i with
  | [] => Incomplete
  | _ => match span f i with ([], _) => Error | (x, r) => Done r x end
  end.
(* is_not!: the bytes up to the first one in the set f; an error if this is the first byte *)
Definition is_not (f : ascii -> bool) : parser bytes :=
  fun i => match i with
  | [] => Done [] []
  | _ => match span (fun a => negb (f a)) i with ([], _) => Error | (x, r) => Done r x end
  end.
(* the functions space and digit: Incomplete at the end of the input, at least one byte *)
Definition is_space (a : ascii) : bool := beqb a " " || beqb a "009".
Definition is_digit (a : ascii) : bool := (Nat.leb 48 (nat_of_ascii a)) && (Nat.leb (nat_of_ascii a) 57).
Definition space : parser bytes := take_while1 is_space.
Definition digit : parser bytes := take_while1 is_digit.
(* take_until!: Incomplete if the byte does not occur *)
Definition take_until (b : ascii) : parser bytes :=
  fun i => match span (fun a => negb (beqb a b)) i with (x, []) => Incomplete | (x, r) => Done r x end.

(* alt!: the next alternative is only tried after an error *)
Definition alt {X : Type} (p q : parser X) : parser X := fun i => match p i with Error => q i | r => r end.
(* opt! *)
Definition opt {X : Type} (p : parser X) : parser (option X) :=
  fun i => match p i with Done r x => Done r (Some x) | Error => Done i None | Incomplete => Incomplete | Panic => Panic end.
(* complete! *)
Definition complete {X : Type} (p : parser X) : parser X := fun i => match p i with Incomplete => Error | r => r end.
(* not! *)
Definition pnot {X : Type} (p : parser X) : parser unit :=
  fun i => match p i with Done _ _ => Error | Error => Done i tt | Incomplete => Incomplete | Panic => Panic end.
(* eof! *)
Definition eof : parser unit := fun i => match i with [] => Done [] tt | _ => Error end.
(* map_res!, map_opt! *)
Definition map_opt {X Y : Type} (p : parser X) (f : X -> option Y) : parser Y :=
  fun i => match p i with Done r x => match f x with Some y => Done r y | None => Error end | Error => Error | Incomplete => Incomplete | Panic => Panic end.
(* expr_res! *)
Definition expr_res {X : Type} (o : option X) : parser X := fun i => match o with Some x => Done i x | None => Error end.
(* unwrap() *)
Definition unwrap {X : Type} (o : option X) : parser X := fun i => match o with Some x => Done i x | None => Panic end.

(* many0!: ends at the end of the input or at the first error; an element that consumes nothing is an error.
   The fuel is the length of the input, every round consumes something. *)
Fixpoint many0_loop {X : Type} (p : parser X) (fuel : nat) (i : bytes) : presult (list X) :=
  match i, fuel with
  | [], _ => Done [] []
  | _, O => Error
  | _, S fuel =>
      match p i with
      | Error => Done i []
      | Incomplete => Incomplete
      | Panic => Panic
      | Done r x => if Nat.eqb (length r) (length i) then Error
                    else match many0_loop p fuel r with Done r' xs => Done r' (x :: xs) | e => e end
      end
  end.
Definition many0 {X : Type} (p : parser X) : parser (list X) := fun i => many0_loop p (length i) i.

(* separated_list_complete! and separated_nonempty_list_complete!: the elements after the first; ends before a separator that is
   not followed by an element, or by one that consumes nothing.  Incomplete counts as an error. *)
Fixpoint sep_loop {X : Type} (sep : parser unit) (p : parser X) (fuel : nat) (i : bytes) : presult (list X) :=
  match fuel with
  | O => Done i []
  | S fuel =>
      match sep i with
      | Panic => Panic
      | Error | Incomplete => Done i []
      | Done i2 _ =>
          if Nat.eqb (length i2) (length i) then Done i []
          else match p i2 with
               | Panic => Panic
               | Error | Incomplete => Done i []
               | Done i3 x => if Nat.eqb (length i3) (length i2) then Done i []
                              else match sep_loop sep p fuel i3 with Done r xs => Done r (x :: xs) | e => e end
               end
      end
  end.
Definition separated_nonempty_list {X : Type} (sep : parser unit) (p : parser X) : parser (list X) :=
  fun i => match p i with
  | Panic => Panic
  | Error | Incomplete => Error
  | Done r x => if Nat.eqb (length r) (length i) then Error
                else match sep_loop sep p (length r) r with Done r' xs => Done r' (x :: xs) | e => e end
  end.
Definition separated_list {X : Type} (sep : parser unit) (p : parser X) : parser (list X) :=
  fun i => match p i with
  | Panic => Panic
  | Error | Incomplete => Done i []
  | Done r x => if Nat.eqb (length r) (length i) then Error
                else match sep_loop sep p (length r) r with Done r' xs => Done r' (x :: xs) | e => e end
  end.

(* escaped!(is_not!(f), ctl, one_of!(esc)): the consumed prefix, without any replacement *)
Fixpoint escaped_loop (f : ascii -> bool) (ctl : ascii) (esc : ascii -> bool) (fuel : nat) (i : bytes) : presult bytes :=
  match i, fuel with
  | [], _ => Done [] []
  | _, O => Error
  | a :: i', S fuel =>
      match is_not f i with
      | Done r x => match escaped_loop f ctl esc fuel r with Done r' y => Done r' (x ++ y) | e => e end
      | Incomplete => Incomplete
      | Panic => Panic
      | Error =>
          if beqb a ctl then
            match i' with
            | b :: r => if esc b then match escaped_loop f ctl esc fuel r with Done r' y => Done r' (a :: b :: y) | e => e end else Error
            | [] => Error
            end
          else Done i []
      end
  end.
Definition escaped (f : ascii -> bool) (ctl : ascii) (esc : ascii -> bool) : parser bytes := fun i => escaped_loop f ctl esc (length i) i.

(* ---- the standard library ---- *)
(* FromStr for a result type: parsing fails or panics *)
Inductive from_str (X : Type) := FOk (x : X) | FErr | FPanic.
Arguments FOk {X}. Arguments FErr {X}. Arguments FPanic {X}.
(* char::is_whitespace restricted to ASCII; other white space is not modelled *)
Definition is_white (a : ascii) : bool := Nat.eqb (nat_of_ascii a) 32 || (Nat.leb 9 (nat_of_ascii a) && Nat.leb (nat_of_ascii a) 13).
(* str::trim_start, str::trim *)
Definition trim_start (s : bytes) : bytes := snd (span is_white s).
Definition trim (s : bytes) : bytes := rev (trim_start (rev (trim_start s))).
(* str::starts_with *)
Definition text_starts_with (t s : bytes) : bool := match tag t s with Done _ _ => true | _ => false end.
(* str::lines: ends at \n, a carriage return before it is dropped, no last empty line.  (Without a final newline the last
   line keeps its carriage return.) *)
Definition strip_cr (l : bytes) : bytes := match rev l with "013"%char :: l' => rev l' | _ => l end.
Fixpoint lines (acc s : bytes) : list bytes :=
  match s with
  | [] => match acc with [] => [] | _ => [rev acc] end
  | "010"%char :: s => strip_cr (rev acc) :: lines [] s
  | a :: s => lines (a :: acc) s
  end.
(* str::split_whitespace *)
Fixpoint split_whitespace (acc s : bytes) : list bytes :=
  match s with
  | [] => match acc with [] => [] | _ => [rev acc] end
  | a :: s => if is_white a then match acc with [] => split_whitespace [] s | _ => rev acc :: split_whitespace [] s end
              else split_whitespace (a :: acc) s
  end.

(* decimal numbers: Display and FromStr of usize *)
Fixpoint uint_text (d : Decimal.uint) : bytes :=
  match d with
  | Nil => []
  | D0 d => "0"%char :: uint_text d | D1 d => "1"%char :: uint_text d | D2 d => "2"%char :: uint_text d
  | D3 d => "3"%char :: uint_text d | D4 d => "4"%char :: uint_text d | D5 d => "5"%char :: uint_text d
  | D6 d => "6"%char :: uint_text d | D7 d => "7"%char :: uint_text d | D8 d => "8"%char :: uint_text d
  | D9 d => "9"%char :: uint_text d
  end.
Fixpoint text_uint (s : bytes) : option Decimal.uint :=
  match s with
  | [] => Some Nil
  | a :: s => option_map (match a with
      | "0" => D0 | "1" => D1 | "2" => D2 | "3" => D3 | "4" => D4 | "5" => D5 | "6" => D6 | "7" => D7 | "8" => D8 | _ => D9 end)%char
      (if is_digit a then text_uint s else None)
  end.
Definition usize_bound : N := 18446744073709551616.
Definition usize_text (n : nat) : bytes := uint_text (N.to_uint (N.of_nat n)).
(* FromStr of usize: None if there is no digit, something else than a digit, or the value is too large.  A leading + is
   accepted if something follows. *)
Definition usize_of_text (s : bytes) : option nat :=
  match (match s with "+"%char :: a :: s' => a :: s' | _ => s end) with
  | [] => None
  | s => match text_uint s with
         | Some d => let n := N.of_uint d in if (n <? usize_bound)%N then Some (N.to_nat n) else None
         | None => None
         end
  end.
