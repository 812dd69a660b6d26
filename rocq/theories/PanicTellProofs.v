(** The message of a panic begins with a place inside of a text. *)
From Coq Require Import Strings.String.
From Verif Require Import Base Lexer Ast Parser Program Sema Value Text StdLib Exec Runtime SpecRun SpecLexer SpecShow SpecPanic
  ShowProofs PanicRunProofs PanicTextProofs.

Lemma says_place {W} (X : ext W) e : fst (says X e) = panic_place e.
Proof. destruct e; reflexivity. Qed.

Lemma message_place {W} (X : ext W) (O : os W) path src b prog n args w e s m h t :
  honest X -> joins_place X path src -> analyze src = Analysis b [] [] -> sema b = SemaOk prog ->
  run_program X O true false n path prog args w = Pan e s -> panic_text X m h e = Known t ->
  exists f text place said, text_of X path src f text /\
    ((exists before c after, text = before ++ c :: after /\ SpecShow.placed X (mkspos f (position_of before)) place) \/
     (e = PStackOverflow (mkspos f (mkpos 0 0)) /\ SpecShow.placed X (mkspos f (mkpos 0 0)) place)) /\
    exists head, tinted X (bs "1") (bs "Panic") head /\ t = head ++ bs " in " ++ place ++ bs ": " ++ said.
Proof.
  intros HX HJ A S R T. pose proof (panic_named X O path src n b prog args w e s HX HJ A S R) as N.
  apply panic_text_message in T. destruct T as [head place ts T P F]. rewrite says_place in P.
  destruct N as [e text N1 N2|f text N1].
  - destruct (places_inside _ _ N2) as (before & c & after & E & Q).
    exists (sp_path (panic_place e)), text, place, (concat ts). split; [exact N1|]. split.
    + left. exists before, c, after. split; [exact E|]. rewrite <- Q. destruct (panic_place e); exact P.
    + exists head. split; [exact T|reflexivity].
  - exists f, text, place, (concat ts). split; [exact N1|]. split; [right; split; [reflexivity|exact P]|].
    exists head. split; [exact T|reflexivity].
Qed.
