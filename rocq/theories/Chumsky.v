(** Model of the combinators of chumsky 0.9.2 that src/grammar.rs uses.

    chumsky is not part of /repo; see DESIGN.md for how this file is trusted
    and how it is checked against the tests of src/grammar.rs.

    A parser maps the remaining tokens to a result.  A token is a character
    with its span.  Instead of an offset into the stream we keep the remaining
    tokens; chumsky's offset is the total number of tokens minus the number of
    remaining ones, so "at a greater offset" is "with fewer remaining". *)

From Coq Require Import NArith PeanoNat List Bool String.
From Verif Require Import Chars Ast Errors.
Import ListNotations.

(** The operations on spans used while parsing: [chumsky::Span] (src/span.rs
    :106-115, 157-166) and [Sealed] (src/traits.rs:140-151), plus the span of
    the end of input of the stream being parsed.
    [sp_join a b] is [Span::new(a.start()..b.end())]. *)
Class env (Sp : Type) := Env {
  sp_join : Sp -> Sp -> Sp;
  sp_at_start : nat -> Sp -> Sp;
  sp_at_end : Sp -> Sp;
  sp_before_start : nat -> Sp -> Sp;
  sp_length : Sp -> nat;
  sp_eoi : Sp;
}.

(** What would be a panic in the Rust program (or, for [CFuel], a defect of
    this model). *)
Inductive crash :=
| CFuel          (* the model's recursion bound was exceeded *)
| CNoProgress    (* "Repeated parser iteration succeeded but consumed no inputs" *)
| CMerge         (* todo!() in ParseError::merge, src/errors.rs:370 *).

Section Chumsky.
Context {Sp : Type} {E : env Sp}.

Definition tok : Type := char * Sp.
Definition toks : Type := list tok.

(** chumsky [Located]; [l_rem] is the number of tokens remaining at the place
    of the error. *)
Record located := Located { l_rem : nat; l_err : perror Sp }.

(** chumsky [PResult]: emitted errors; then either output, new position and
    furthest alternative error, or the error; and the crash log. *)
Inductive outcome (A : Type) :=
| Ok (a : A) (rest : toks) (alt : option located)
| Err (e : located).
Arguments Ok {A}.
Arguments Err {A}.

Record presult (A : Type) := Res {
  r_errs : list located;
  r_out : outcome A;
  r_crash : list crash;
}.
Arguments Res {A}.
Arguments r_errs {A}.
Arguments r_out {A}.
Arguments r_crash {A}.

Definition parser (A : Type) : Type := toks -> presult A.

(** chumsky [Located::max]: the further one; merged when at the same place. *)
Definition lmax (a b : located) : located * list crash :=
  match Nat.compare (l_rem a) (l_rem b) with
  | Lt => (a, [])
  | Gt => (b, [])
  | Eq =>
      match merge (l_err a) (l_err b) with
      | Some e => (Located (l_rem a) e, [])
      | None => (a, [CMerge])
      end
  end.

(** [Located::max] with an optional argument. *)
Definition lmax_opt (a : located) (b : option located) : located * list crash :=
  match b with
  | Some b => lmax a b
  | None => (a, [])
  end.

(** chumsky [merge_alts] for an optional second argument. *)
Definition merge_alts (a b : option located) : option located * list crash :=
  match a, b with
  | Some a, Some b => let '(m, c) := lmax b a in (Some m, c)
  | None, b => (b, [])
  | a, None => (a, [])
  end.

(** chumsky [merge_alts] for a list. *)
Fixpoint merge_alts_list (a : option located) (l : list located)
  : option located * list crash :=
  match l with
  | [] => (a, [])
  | b :: l' =>
      let '(m, c) := merge_alts a (Some b) in
      let '(m', c') := merge_alts_list m l' in
      (m', c ++ c')
  end.

(** chumsky [Stream::span_since], for a match that starts at [ts] and ends where
    [rem] tokens remain.  The end is that of the last consumed token, or of the
    next one if nothing was consumed. *)
Definition span_since (ts : toks) (rem : nat) : Sp :=
  let first := match ts with (_, s) :: _ => s | [] => sp_eoi end in
  let last :=
    match nth_error ts (List.length ts - rem - 1) with
    | Some (_, s) => s
    | None => sp_eoi
    end in
  sp_join first last.

(** [Stream::next] at the end of input yields no token and the [eoi] span. *)
Definition unexpected (ts : toks) (expected : list (option char)) : located :=
  match ts with
  | (c, s) :: _ =>
      Located (List.length ts) (expected_input_found s expected (Some c))
  | [] => Located 0 (expected_input_found sp_eoi expected None)
  end.

Definition fail {A} (e : located) : presult A := Res [] (Err e) [].

(** chumsky [filter]. *)
Definition p_filter (f : char -> bool) : parser char := fun ts =>
  match ts with
  | (c, _) :: ts' =>
      if f c then Res [] (Ok c ts' None) [] else fail (unexpected ts [])
  | [] => fail (unexpected ts [])
  end.

(** chumsky [none_of] for one character. *)
Definition p_none_of (x : char) : parser char :=
  p_filter (fun c => negb (N.eqb c x)).

(** chumsky [just] for one character. *)
Definition p_just (x : char) : parser char := fun ts =>
  match ts with
  | (c, _) :: ts' =>
      if N.eqb c x then Res [] (Ok c ts' None) []
      else fail (unexpected ts [Some x])
  | [] => fail (unexpected ts [Some x])
  end.

(** chumsky [just] for a string. *)
Fixpoint p_just_str (s : text) : parser unit := fun ts =>
  match s with
  | [] => Res [] (Ok tt ts None) []
  | x :: s' =>
      match ts with
      | (c, _) :: ts' =>
          if N.eqb c x then p_just_str s' ts'
          else fail (unexpected ts [Some x])
      | [] => fail (unexpected ts [Some x])
      end
  end.

(** chumsky [end]. *)
Definition p_end : parser unit := fun ts =>
  match ts with
  | [] => Res [] (Ok tt [] None) []
  | _ :: _ => fail (unexpected ts [None])
  end.

(** chumsky [filter_map]. *)
Definition p_filter_map {A} (f : Sp -> char -> A + perror Sp) : parser A :=
  fun ts =>
  match ts with
  | (c, s) :: ts' =>
      match f s c with
      | inl a => Res [] (Ok a ts' None) []
      | inr e => fail (Located (List.length ts) e)
      end
  | [] => fail (unexpected ts [])
  end.

(** chumsky [map], [ignored], [to]. *)
Definition p_map {A B} (f : A -> B) (p : parser A) : parser B := fun ts =>
  let r := p ts in
  Res (r_errs r)
      (match r_out r with
       | Ok a rest alt => Ok (f a) rest alt
       | Err e => Err e
       end)
      (r_crash r).

Definition p_ignored {A} (p : parser A) : parser unit := p_map (fun _ => tt) p.

(** chumsky [map_with_span]. *)
Definition p_map_with_span {A B} (f : A -> Sp -> B) (p : parser A) : parser B :=
  fun ts =>
  let r := p ts in
  Res (r_errs r)
      (match r_out r with
       | Ok a rest alt => Ok (f a (span_since ts (List.length rest))) rest alt
       | Err e => Err e
       end)
      (r_crash r).

(** chumsky [map_err]: the hard error only. *)
Definition p_map_err {A} (f : perror Sp -> perror Sp) (p : parser A) : parser A :=
  fun ts =>
  let r := p ts in
  Res (r_errs r)
      (match r_out r with
       | Ok a rest alt => Ok a rest alt
       | Err e => Err (Located (l_rem e) (f (l_err e)))
       end)
      (r_crash r).

(** chumsky [map_err_with_span]: the span goes from the start of the parser to
    the place of the error.  The callback may panic ([None]). *)
Definition p_map_err_with_span {A}
    (f : perror Sp -> Sp -> option (perror Sp)) (p : parser A) : parser A :=
  fun ts =>
  let r := p ts in
  match r_out r with
  | Ok a rest alt => r
  | Err e =>
      match f (l_err e) (span_since ts (l_rem e)) with
      | Some e' => Res (r_errs r) (Err (Located (l_rem e) e')) (r_crash r)
      | None => Res (r_errs r) (Err e) (r_crash r ++ [CMerge])
      end
  end.

(** chumsky [try_map]: the new error is placed after what was parsed. *)
Definition p_try_map {A B} (f : A -> Sp -> B + perror Sp) (p : parser A)
  : parser B := fun ts =>
  let r := p ts in
  Res (r_errs r)
      (match r_out r with
       | Ok a rest alt =>
           match f a (span_since ts (List.length rest)) with
           | inl b => Ok b rest alt
           | inr e => Err (Located (List.length rest) e)
           end
       | Err e => Err e
       end)
      (r_crash r).

(** chumsky [validate], for a callback that emits at most one error. *)
Definition p_validate {A B} (f : A -> Sp -> B * option (perror Sp))
    (p : parser A) : parser B := fun ts =>
  let r := p ts in
  match r_out r with
  | Ok a rest alt =>
      let '(b, e) := f a (span_since ts (List.length rest)) in
      Res (r_errs r ++
           match e with
           | Some e => [Located (List.length rest) e]
           | None => []
           end)
          (Ok b rest alt) (r_crash r)
  | Err e => Res (r_errs r) (Err e) (r_crash r)
  end.

(** chumsky [then_with], where the second parser depends on the output of the
    first. *)
Definition p_bind {A B} (p : parser A) (q : A -> parser B) : parser (A * B) :=
  fun ts =>
  let r := p ts in
  match r_out r with
  | Err e => Res (r_errs r) (Err e) (r_crash r)
  | Ok a rest alt =>
      let r2 := q a rest in
      match r_out r2 with
      | Ok b rest2 alt2 =>
          let '(alt', c) := merge_alts alt alt2 in
          Res (r_errs r ++ r_errs r2) (Ok (a, b) rest2 alt')
              (r_crash r ++ r_crash r2 ++ c)
      | Err e =>
          let '(e', c) := lmax_opt e alt in
          Res (r_errs r ++ r_errs r2) (Err e') (r_crash r ++ r_crash r2 ++ c)
      end
  end.

(** chumsky [then]. *)
Definition p_then {A B} (p : parser A) (q : parser B) : parser (A * B) :=
  p_bind p (fun _ => q).

(** chumsky [ignore_then], [then_ignore], [delimited_by]. *)
Definition p_ignore_then {A B} (p : parser A) (q : parser B) : parser B :=
  p_map snd (p_then p q).
Definition p_then_ignore {A B} (p : parser A) (q : parser B) : parser A :=
  p_map fst (p_then p q).
Definition p_delimited {A B C} (p : parser A) (o : parser B) (c : parser C)
  : parser A :=
  p_then_ignore (p_ignore_then o p) c.

(** Comparison of optional error positions; [Gt] is "further". *)
Definition cmp_at (a b : located) : comparison :=
  Nat.compare (l_rem b) (l_rem a).

Definition last_err (l : list located) : option located :=
  match rev l with [] => None | e :: _ => Some e end.

Definition cmp_last (a b : list located) : comparison :=
  match last_err a, last_err b with
  | Some a, Some b => cmp_at a b
  | _, _ => Eq
  end.

Definition cmp_alt (a b : option located) : comparison :=
  match a, b with
  | Some a, Some b => cmp_at a b
  | _, _ => Eq
  end.

(** The alternative error that a discarded branch leaves behind. *)
Definition branch_alt {A} (o : outcome A) : option located :=
  match o with
  | Ok _ _ alt => alt
  | Err e => Some e
  end.

Definition with_alt {A} (r : presult A) (other : presult A) : presult A :=
  match r_out r with
  | Ok a rest alt =>
      let '(alt', c) := merge_alts alt (branch_alt (r_out other)) in
      Res (r_errs r) (Ok a rest alt') (r_crash r ++ c)
  | Err e => r
  end.

Definition add_crash {A} (c : list crash) (r : presult A) : presult A :=
  Res (r_errs r) (r_out r) (c ++ r_crash r).

(** chumsky [or]: the second alternative is tried unless the first one gave an
    output and no errors; then the better branch is chosen. *)
Definition p_or {A} (p q : parser A) : parser A := fun ts =>
  let a := p ts in
  match r_errs a, r_out a with
  | [], Ok _ _ _ => a
  | _, _ =>
      let b := q ts in
      match r_out a, r_out b with
      | Ok _ _ alta, Ok _ _ altb =>
          let a_wins := add_crash (r_crash b) (with_alt a b) in
          let b_wins := add_crash (r_crash a) (with_alt b a) in
          match Nat.compare (List.length (r_errs a)) (List.length (r_errs b)) with
          | Gt => b_wins
          | Lt => a_wins
          | Eq =>
              match cmp_last (r_errs a) (r_errs b) with
              | Gt => a_wins
              | Lt => b_wins
              | Eq =>
                  match cmp_alt alta altb with
                  | Lt => b_wins
                  | _ => a_wins
                  end
              end
          end
      | Ok _ _ _, Err _ => add_crash (r_crash b) (with_alt a b)
      | Err _, Ok _ _ _ => add_crash (r_crash a) (with_alt b a)
      | Err ea, Err eb =>
          match cmp_at ea eb with
          | Gt => add_crash (r_crash b) a
          | Lt => add_crash (r_crash a) b
          | Eq =>
              match Nat.compare (List.length (r_errs a)) (List.length (r_errs b)) with
              | Gt => add_crash (r_crash a) b
              | Lt => add_crash (r_crash b) a
              | Eq =>
                  match cmp_last (r_errs a) (r_errs b) with
                  | Gt => add_crash (r_crash b) a
                  | Lt => add_crash (r_crash a) b
                  | Eq =>
                      let '(e, c) := lmax ea eb in
                      Res (r_errs a) (Err e) (r_crash a ++ r_crash b ++ c)
                  end
              end
          end
      end
  end.

(** chumsky [choice]: the first alternative that gives an output, whatever
    errors it emitted. *)
Fixpoint p_choice_from {A} (alt : option located) (ps : list (parser A))
  : parser A := fun ts =>
  match ps with
  | [] =>
      match alt with
      | Some e => fail e
      | None => Res [] (Err (unexpected ts [])) [CFuel] (* empty tuple *)
      end
  | p :: ps' =>
      let r := p ts in
      match r_out r with
      | Ok _ _ _ => r
      | Err e =>
          let '(alt', c) := merge_alts alt (Some e) in
          add_crash (r_crash r ++ c) (p_choice_from alt' ps' ts)
      end
  end.

Definition p_choice {A} (ps : list (parser A)) : parser A :=
  p_choice_from None ps.

(** chumsky [or_not]: a hard error is kept as alternative error only. *)
Definition p_or_not {A} (p : parser A) : parser (option A) := fun ts =>
  let r := p ts in
  match r_out r with
  | Ok a rest alt => Res (r_errs r) (Ok (Some a) rest alt) (r_crash r)
  | Err e => Res [] (Ok None ts (Some e)) (r_crash r)
  end.

(** chumsky [rewind]. *)
Definition p_rewind {A} (p : parser A) : parser A := fun ts =>
  let r := p ts in
  Res (r_errs r)
      (match r_out r with
       | Ok a _ alt => Ok a ts alt
       | Err e => Err e
       end)
      (r_crash r).

(** chumsky [repeated] with [at_least] and [at_most]: greedy.  [old] is the
    position after the previous iteration. *)
Fixpoint repeat_loop {A} (fuel : nat) (p : parser A)
    (at_least : nat) (at_most : option nat)
    (errs : list located) (outs : list A) (alt : option located)
    (old : option nat) (cr : list crash) (ts : toks) : presult (list A) :=
  match fuel with
  | O => Res errs (Ok (rev outs) ts alt) (cr ++ [CFuel])
  | S fuel' =>
      let stop := match at_most with
                  | Some m => m <=? List.length outs
                  | None => false
                  end in
      if stop then Res errs (Ok (rev outs) ts alt) cr
      else
        let r := p ts in
        match r_out r with
        | Ok a rest a_alt =>
            let '(alt', c) := merge_alts alt a_alt in
            let no_progress :=
              match old with
              | Some o => o =? List.length rest
              | None => false
              end in
            if no_progress
            then Res (errs ++ r_errs r) (Ok (rev (a :: outs)) rest alt')
                     (cr ++ r_crash r ++ c ++ [CNoProgress])
            else repeat_loop fuel' p at_least at_most (errs ++ r_errs r)
                   (a :: outs) alt' (Some (List.length rest))
                   (cr ++ r_crash r ++ c) rest
        | Err e =>
            if List.length outs <? at_least
            then Res (errs ++ r_errs r) (Err e) (cr ++ r_crash r)
            else
              let '(alt', c) := merge_alts alt (Some e) in
              Res errs (Ok (rev outs) ts alt') (cr ++ r_crash r ++ c)
        end
  end.

Definition p_repeat {A} (at_least : nat) (at_most : option nat) (p : parser A)
  : parser (list A) := fun ts =>
  repeat_loop (3 + List.length ts) p at_least at_most [] [] None None [] ts.

Definition p_repeated {A} (p : parser A) : parser (list A) := p_repeat 0 None p.

(** chumsky [repeated().exactly(n)]. *)
Definition p_exactly {A} (n : nat) (p : parser A) : parser (list A) :=
  p_repeat n (Some n) p.

(** chumsky [take_until]: the characters skipped and the output of [p]. *)
Fixpoint until_loop {A} (p : parser A) (alt : option located)
    (outs : list char) (cr : list crash) (ts : toks)
  : presult (list char * A) :=
  let r := p ts in
  match r_out r with
  | Ok a rest a_alt =>
      let '(alt', c) := merge_alts alt a_alt in
      Res (r_errs r) (Ok (rev outs, a) rest alt') (cr ++ r_crash r ++ c)
  | Err e =>
      match ts with
      | [] => Res (r_errs r) (Err e) (cr ++ r_crash r)
      | (c, _) :: ts' =>
          let '(alt', cm) := merge_alts alt (Some e) in
          until_loop p alt' (c :: outs) (cr ++ r_crash r ++ cm) ts'
      end
  end.

Definition p_take_until {A} (p : parser A) : parser (list char * A) := fun ts =>
  until_loop p None [] [] ts.

(** chumsky [recover_with(skip_until(set, fallback))]: after a hard error, skip
    from where the failed parser started to a token of the set, which is not
    consumed; if there is none the error stays hard. *)
Fixpoint skip_to (f : char -> bool) (ts : toks) : option toks :=
  match ts with
  | [] => None
  | (c, _) :: ts' => if f c then Some ts else skip_to f ts'
  end.

Definition p_recover_skip_until {A} (f : char -> bool) (fallback : A)
    (p : parser A) : parser A := fun ts =>
  let r := p ts in
  match r_out r with
  | Ok _ _ _ => r
  | Err e =>
      match skip_to f ts with
      | Some rest => Res (r_errs r ++ [e]) (Ok fallback rest None) (r_crash r)
      | None => r
      end
  end.

(** chumsky [separated_by], helper [parse_or_not]: an optional delimiter. *)
Definition sep_or_not {B} (d : parser B) (alt : option located) (ts : toks)
  : option located * toks * list crash :=
  let r := d ts in
  match r_out r with
  | Ok _ rest d_alt =>
      let '(m, c1) := merge_alts_list d_alt (r_errs r) in
      let '(m', c2) := merge_alts alt m in
      (m', rest, r_crash r ++ c1 ++ c2)
  | Err e =>
      let '(m, c1) := merge_alts_list (Some e) (r_errs r) in
      let '(m', c2) := merge_alts alt m in
      (m', ts, r_crash r ++ c1 ++ c2)
  end.

(** The loop of [separated_by]: [ts] is the position after the last item (the
    [offset] of the Rust code).  Returns the errors, outputs, alternative error,
    that position, the error that ended the loop and the crash log. *)
Fixpoint sep_loop {A B} (fuel : nat) (item : parser A) (d : parser B)
    (errs : list located) (outs : list A) (alt : option located)
    (cr : list crash) (ts : toks)
  : list located * list A * option located * toks * option located * list crash :=
  match fuel with
  | O => (errs, outs, alt, ts, None, cr ++ [CFuel])
  | S fuel' =>
      let rd := d ts in
      match r_out rd with
      | Err e => (errs ++ r_errs rd, outs, alt, ts, Some e, cr ++ r_crash rd)
      | Ok _ rest d_alt =>
          let '(alt1, c1) := merge_alts alt d_alt in
          let ri := item rest in
          let errs' := errs ++ r_errs rd ++ r_errs ri in
          let cr' := cr ++ r_crash rd ++ c1 ++ r_crash ri in
          match r_out ri with
          | Ok a rest' i_alt =>
              let '(alt2, c2) := merge_alts alt1 i_alt in
              sep_loop fuel' item d errs' (a :: outs) alt2 (cr' ++ c2) rest'
          | Err e => (errs', outs, alt1, ts, Some e, cr')
          end
      end
  end.

(** chumsky [separated_by(d).allow_leading().allow_trailing()]. *)
Definition p_separated {A B} (item : parser A) (d : parser B)
  : parser (list A) := fun ts =>
  let '(alt0, ts0, c0) := sep_or_not d None ts in
  let ri := item ts0 in
  match r_out ri with
  | Err e =>
      let '(alt1, c1) := merge_alts alt0 (Some e) in
      Res (r_errs ri) (Ok [] ts0 alt1) (c0 ++ r_crash ri ++ c1)
  | Ok a rest i_alt =>
      let '(alt1, c1) := merge_alts alt0 i_alt in
      let '(errs, outs, alt2, ts2, err, c2) :=
        sep_loop (S (List.length ts)) item d (r_errs ri) [a] alt1
                 (c0 ++ r_crash ri ++ c1) rest in
      let '(alt3, ts3, c3) := sep_or_not d alt2 ts2 in
      let '(alt4, c4) := merge_alts alt3 err in
      Res errs (Ok (rev outs) ts3 alt4) (c2 ++ c3 ++ c4)
  end.

(** chumsky [Parser::parse]: the output if there are no errors at all,
    otherwise the emitted errors followed by the hard one. *)
Inductive parsed (A : Type) :=
| Parsed (a : A)
| Rejected (errs : list (perror Sp))
| Panicked.
Arguments Parsed {A}.
Arguments Rejected {A}.
Arguments Panicked {A}.

Definition run {A} (p : parser A) (ts : toks) : parsed A :=
  let r := p ts in
  match r_crash r with
  | _ :: _ => Panicked
  | [] =>
      match r_out r with
      | Ok a _ _ =>
          match r_errs r with
          | [] => Parsed a
          | es => Rejected (map l_err es)
          end
      | Err e => Rejected (map l_err (r_errs r ++ [e]))
      end
  end.

End Chumsky.

Arguments tok : clear implicits.
Arguments toks : clear implicits.
Arguments located : clear implicits.
Arguments outcome : clear implicits.
Arguments presult : clear implicits.
Arguments parser : clear implicits.
Arguments parsed : clear implicits.
Arguments Ok {Sp A}.
Arguments Err {Sp A}.
Arguments Res {Sp A}.
Arguments r_errs {Sp A}.
Arguments r_out {Sp A}.
Arguments r_crash {Sp A}.
Arguments Located {Sp}.
Arguments l_rem {Sp}.
Arguments l_err {Sp}.
Arguments Parsed {Sp A}.
Arguments Rejected {Sp A}.
Arguments Panicked {Sp A}.
