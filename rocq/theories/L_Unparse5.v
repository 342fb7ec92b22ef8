(* What the parser gives for a printed expression prints again. *)
From Coq Require Import ZArith String Ascii List Bool Lia ZifyBool.
From Verif Require Import Base M_Overflow M_Number M_Utf8 S_Utf8 M_Strings M_Attr M_Value M_Logic M_Expr
  M_Macro M_Balancer M_Namespace P_Balance.
From Verif Require Import M_Lex M_Parse M_Unparse S_Unparse L_Unparse1.
Import ListNotations.
Open Scope list_scope.
Open Scope Z_scope.

Section Again.
  Variable c : config.
  Lemma tree_printable fn t : logical fn = true -> binary fn t -> Forall (printable c) (operands (tokens t)) ->
    printable c (erase t).
  Proof.
    intros Lg B. revert t B. apply (binary_ind fn (fun t => Forall (printable c) (operands (tokens t)) -> printable c (erase t))).
    - intros e H. cbn in *. now inversion H.
    - intros id a b IHa IHb. rewrite tokens_call, operands_app.
      change (operands (inr id :: tokens b)) with (operands (tokens b)). rewrite Forall_app. intros [Ha Hb].
      cbn [erase map]. apply P_logical; [exact Lg|cbn; lia|]. repeat constructor; auto.
  Qed.
  Lemma group_printable fn l : logical fn = true -> (2 <= List.length l)%nat -> Forall (printable c) l ->
    printable c (group c fn l) /\ exists l', group c fn l = ECall fn None l'.
  Proof.
    intros Lg N F.
    assert (D : printable c (ECall fn None l) /\ exists l', ECall fn None l = ECall fn None l') by (split; [now apply P_logical|eauto]).
    unfold group. destruct (Z.leb_spec (Z.of_nat (List.length l)) (2 ^ 30)) as [Hl|]; [|exact D].
    destruct (balanced c fn l) as [x|] eqn:B; [|exact D].
    unfold balanced in B. destruct l as [|first [|y rest]]; [cbn in N; lia..|].
    destruct (c_variadic c) eqn:V.
    - cbn [map] in B. rewrite C33_variadic in B. injection B as <-. cbn [erase map fst snd].
      rewrite !map_map. cbn [erase snd]. rewrite map_id. exact D.
    - destruct (balance_chain false fn first (map (fun e => (0, e)) (y :: rest))) as [t|s|] eqn:Bt; try discriminate.
      injection B as <-.
      destruct (C33_tree fn first (map (fun e => (0, e)) (y :: rest))) as [t' [Bt' [Tk [Bn _]]]].
      { rewrite map_length. cbn [List.length] in *. lia. }
      rewrite Bt in Bt'. injection Bt' as <-. split.
      + apply (tree_printable fn t Lg Bn). rewrite Tk, chain_operands. exact F.
      + destruct t as [e0|id f args]; [cbn in Tk; discriminate|]. destruct args as [|a [|b [|? ?]]]; cbn in Bn; try contradiction.
        destruct Bn as [-> _]. cbn [erase]. eauto.
  Qed.
  Definition again (e : expr) : Prop :=
    printable c (norm c e) /\ leading_number (norm c e) = leading_number e /\ unary (norm c e) = unary e /\
    operator_call (norm c e) = operator_call e /\
    (forall fn, logical fn = true -> Forall (fun x => printable c (regroup c x)) (parts fn (flat e))).
  Lemma again_simple e : match e with ECall fn None _ => logical fn = false | _ => True end ->
    printable c (norm c e) -> leading_number (norm c e) = leading_number e -> again e.
  Proof.
    intros N P L. split; [exact P|]. split; [exact L|].
    assert (X : unary (norm c e) = unary e /\ operator_call (norm c e) = operator_call e).
    { destruct e as [v|n|o f t|g [t|] args|l|l|x y a r i co s re]; try (split; reflexivity).
      unfold norm. cbn [flat]. rewrite N. cbn [regroup]. rewrite N. split; reflexivity. }
    destruct X as [X1 X2]. split; [exact X1|]. split; [exact X2|]. intros fn Lg. rewrite (not_logical_parts e N fn Lg). now constructor.
  Qed.
  Lemma norm_call fn args : logical fn = false -> norm c (ECall fn None args) = ECall fn None (map (norm c) args).
  Proof. intros N. unfold norm. cbn [flat]. rewrite N. cbn [regroup]. rewrite N. now rewrite map_map. Qed.
  Lemma again_all args : Forall (fun a => printable c a /\ again a) args -> Forall (printable c) (map (norm c) args).
  Proof. induction 1 as [|a l [_ [H _]] _ IH]; constructor; assumption. Qed.
  Lemma again_printable : forall e, printable c e -> again e.
  Proof.
    apply printable_ind'.
    - intros v H. apply again_simple; try easy. now constructor.
    - intros n H. apply again_simple; try easy. now constructor.
    - intros o f _ (P & L & U & _) Uo F. apply again_simple; try easy. apply (P_select c (norm c o) f); try assumption. now rewrite U.
    - intros o f M _ (P & L & _ & O & _) Oo F. apply again_simple; try easy. apply (P_has c (norm c o) f); try assumption. now rewrite O.
    - intros a _ (P & L & U & _) Ua. apply again_simple; try easy. apply (P_not c (norm c a)); try assumption. now rewrite U.
    - intros a _ (P & L & U & _) Ua La. apply again_simple; try easy. apply (P_neg c (norm c a)); try assumption; [now rewrite U|now rewrite L].
    - intros fn l r I _ (Pl & _) _ (Pr & _). pose proof (binary_not_logical fn I) as N. apply again_simple; [exact N| |];
        rewrite (norm_call fn [l; r] N).
      + now apply P_binary.
      + cbn [leading_number map]. cbn in I. repeat (destruct I as [<-|I]; [reflexivity|]). destruct I.
    - intros fn args Lg N F.
      assert (X : (List.length args <= List.length (flat_map (parts fn) (map flat args)))%nat /\
                  Forall (fun x => printable c (regroup c x)) (flat_map (parts fn) (map flat args))).
      { clear N. induction F as [|a l [Pa (_ & _ & _ & _ & Ha)] _ [IHn IHf]]; [split; [reflexivity|constructor]|].
        cbn [map flat_map List.length]. destruct (printable_grouped c a Pa) as [_ Gr]. destruct (Gr fn Lg) as [L1 _].
        rewrite app_length. split; [lia|]. apply Forall_app. split; [now apply Ha|exact IHf]. }
      destruct X as [Ln Fx].
      assert (E : norm c (ECall fn None args) = group c fn (map (regroup c) (flat_map (parts fn) (map flat args)))).
      { unfold norm. cbn [flat]. rewrite Lg. cbn [regroup]. now rewrite Lg. }
      destruct (group_printable fn (map (regroup c) (flat_map (parts fn) (map flat args))) Lg) as [Gp [l' Gl]].
      { rewrite map_length. lia. }
      { rewrite Forall_map. exact Fx. }
      unfold again. rewrite E. split; [exact Gp|]. rewrite Gl.
      assert (Ln0 : forall l, leading_number (ECall fn None l) = false).
      { intros l. destruct (logical_cases fn Lg) as [-> | ->]; destruct l; reflexivity. }
      rewrite !Ln0. split; [reflexivity|]. split; [reflexivity|]. split; [reflexivity|].
      intros fn' Lg'. cbn [flat]. rewrite Lg. cbn [parts]. destruct (String.eqb_spec fn fn') as [<-|Nf]; [exact Fx|].
      constructor; [|constructor]. unfold norm in E. cbn [flat] in E. rewrite Lg in E. rewrite E. exact Gp.
    - intros x y z _ (Px & _) _ (Py & _) _ (Pz & _). apply again_simple; try easy. now apply (P_cond c (norm c x) (norm c y) (norm c z)).
    - intros a i _ (P & L & U & _) Ua _ (Pi & _). apply again_simple; try easy. apply (P_index c (norm c a) (norm c i)); try assumption. now rewrite U.
    - intros a i O _ (P & L & U & _) Ua _ (Pi & _). apply again_simple; try easy. apply (P_opt_index c (norm c a) (norm c i)); try assumption. now rewrite U.
    - intros a f O _ (P & L & U & _) Ua F. apply again_simple; try easy. apply (P_opt_select c (norm c a) f); try assumption. now rewrite U.
    - intros fn args Nm Ni G F. pose proof (name_not_logical fn Nm) as N.
      apply again_simple; [exact N| |]; rewrite (norm_call fn args N).
      + apply P_call; try assumption; [now rewrite map_length|now apply again_all].
      + assert (X : String.eqb fn "_[_]" || String.eqb fn "_[?_]" || String.eqb fn "_?._" = false).
        { rewrite !orb_false_iff. repeat split; apply String.eqb_neq; intros ->; destruct Nm as [H|[n [H _]]]; discriminate. }
        destruct args; [reflexivity|]. cbn [map leading_number]. now rewrite X.
    - intros fn t args W K Ni R _ (P & L & U & _) Ut F.
      assert (E : norm c (ECall fn (Some t) args) = ECall fn (Some (norm c t)) (map (norm c) args)).
      { unfold norm. cbn [flat regroup]. now rewrite map_map. }
      apply again_simple; [exact I| |]; rewrite E.
      + apply P_method; try assumption; [now rewrite map_length|now rewrite U|now apply again_all].
      + exact L.
    - intros l F. apply again_simple; try easy. unfold norm. cbn [flat regroup]. rewrite map_map. apply P_list.
      induction F as [|[o a] l [M [_ [H _]]] _ IH]; constructor; [|exact IH]. now split.
    - intros l F. apply again_simple; try easy. unfold norm. cbn [flat regroup]. rewrite map_map. apply P_map.
      induction F as [|[o [k v]] l [M [[_ [Hk _]] [_ [Hv _]]]] _ IH]; constructor; [|exact IH]. cbn in *. repeat split; assumption.
    - intros x range p M V _ (P & L & U & _) Ur _ (Pp & _). apply again_simple; try easy.
      apply (P_all c x (norm c range) (norm c p)); try assumption. now rewrite U.
    - intros x range p M V _ (P & L & U & _) Ur _ (Pp & _). apply again_simple; try easy.
      apply (P_exists c x (norm c range) (norm c p)); try assumption. now rewrite U.
    - intros x range p M V _ (P & L & U & _) Ur _ (Pp & _). apply again_simple; try easy.
      apply (P_exists_one c x (norm c range) (norm c p)); try assumption. now rewrite U.
    - intros x range p M V _ (P & L & U & _) Ur _ (Pp & _). apply again_simple; try easy.
      apply (P_map2 c x (norm c range) (norm c p)); try assumption. now rewrite U.
    - intros x range p f M V _ (P & L & U & _) Ur _ (Pp & _) _ (Pf & _). apply again_simple; try easy.
      apply (P_map3 c x (norm c range) (norm c p) (norm c f)); try assumption. now rewrite U.
  Qed.
  Lemma norm_norm e : printable c e -> norm c (norm c e) = norm c e.
  Proof. intros P. unfold norm at 1. now rewrite (proj1 (printable_grouped c e P)). Qed.
End Again.
