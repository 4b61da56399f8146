From Coq Require Import String Ascii List Bool Arith Lia.
From Verif Require Import Base Syntax SyntaxSpec Ast Parser ParserSpec ParserKept ParserToken ParserSound ParserSoundExpr.
Import ListNotations.
Local Open Scope string_scope.

Lemma components_sound W p : sound W p -> sound (fun l => l <> [] /\ every W l) (components p).
Proof. intros H. apply many1_sound. intros x a r E. pinv. apply tag_len in E0. cbn in E0. use H. split; [assumption|lia]. Qed.
Lemma public_sound : sound (fun x => name x /\ public_name x = true) public_component.
Proof. intros x a r H. unfold public_component in H. pinv. tok. split; [split; assumption|lia]. Qed.
Lemma path_sound : sound faithful_path module_path.
Proof.
  intros x a r H. unfold module_path in H. pose proof (skip_shorter x). pinv.
  - unfold external_path in H. pinv. tok. use (components_sound _ _ public_sound). split; [split; [assumption|assumption]|lia].
  - unfold internal_path in H. pinv. use (components_sound _ _ identifier_sound). split; [assumption|lia].
Qed.
Lemma alias_sound : loose name (fun s => do_ s <- keyword "as" s; identifier s).
Proof. intros x a r H. pinv. tok. split; [assumption|lia]. Qed.
Lemma unqualified_sound : loose (every name) (fun s => do_ s <- sign "{" s; do l, s <- terminated_list1 (sign ",") identifier s; do_ s <- sign "}" s; POk l s).
Proof. intros x a r H. pinv. use (terminated1_sound name _ _ comma_sound identifier_sound). tok. split; [match goal with H : _ /\ every _ _ |- _ => apply H end|lia]. Qed.
Lemma import_sound : sound faithful_import import.
Proof.
  intros x a r H. unfold import in H. pinv. use path_sound. use (opt_sound name _ alias_sound). use (opt_sound (every name) _ unqualified_sound). tok.
  split; [|lia]. split; [assumption|]. split; [assumption|]. match goal with o : option (list string) |- _ => destruct o; [assumption|exact I] end.
Qed.
Lemma calling_sound : sound (fun _ => True) calling_convention.
Proof. intros x a r H. unfold calling_convention in H. pinv. tok. split; [exact I|lia]. Qed.
Lemma foreign_sound : sound (fun f => kept_type (f_type f) -> faithful_foreign f) foreign_import.
Proof.
  intros x a r H. unfold foreign_import in H. pinv. use (opt_sound _ _ (sound_loose _ _ calling_sound)). use type_sound. tok.
  split; [|lia]. intros K. split; [assumption|auto].
Qed.
Lemma export_sound : sound (fun _ => True) foreign_export.
Proof. intros x a r H. unfold foreign_export in H. pinv. use (opt_sound _ _ (sound_loose _ _ calling_sound)). tok. split; [exact I|lia]. Qed.
Lemma definition_sound : sound (fun f => kept_lambda (fn_lambda f) -> faithful_function f) function_definition.
Proof.
  intros x a r H. unfold function_definition in H. pinv. use (opt_sound _ _ (sound_loose _ _ export_sound)). use (lambda_sound _ expression_sound). tok.
  split; [|lia]. intros K. split; [assumption|]. cbn in *. auto.
Qed.
Lemma field_sound : sound Warg record_field_definition.
Proof. intros x a r H. unfold record_field_definition in H. pinv. tok. use type_sound. split; [split; assumption|lia]. Qed.
Lemma typedef_sound : sound (fun d => kept_typedef d -> faithful_typedef d) (alt type_alias record_definition).
Proof.
  intros x a r H. pinv.
  - unfold type_alias in H. pinv. use type_sound. tok. split; [|lia]. intros K. split; [assumption|auto].
  - unfold record_definition in H. pinv. use (many0_sound Warg _ (sound_loose _ _ field_sound)). tok. split; [|lia]. intros K. split; [assumption|]. apply args_sound; assumption.
Qed.

(** Every module that the parser reads is faithful, but for the places where
    the formatter drops parentheses. *)
Lemma parse_faithful s m : parse s = Some m -> kept_module m -> faithful_module m.
Proof.
  intros H (K1 & K2 & K3). unfold parse in H. destruct (module_ s) as [a r| |] eqn:E; try discriminate. destruct r; [|discriminate]. injection H as ->.
  unfold module_ in E. pinv. use (many0_sound _ _ (sound_loose _ _ import_sound)). use (many0_sound _ _ (sound_loose _ _ foreign_sound)).
  use (many0_sound _ _ (sound_loose _ _ typedef_sound)). use (many0_sound _ _ (sound_loose _ _ definition_sound)). cbn [m_foreign m_types m_functions] in K1, K2, K3.
  split; [assumption|]. split; [apply (every_imp (fun f => kept_type (f_type f)) faithful_foreign); assumption|].
  split; [apply (every_imp kept_typedef faithful_typedef); assumption|apply (every_imp (fun f => kept_lambda (fn_lambda f)) faithful_function); assumption].
Qed.
