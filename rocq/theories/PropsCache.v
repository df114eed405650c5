(** * PropsCache: the parse cache is transparent (C17). *)

From Coq Require Import String Ascii List NArith Bool Arith Lia.
From Verif Require Import Str StrFacts Ast CssParser SheetCache.
Import ListNotations.
Local Open Scope list_scope.

Local Opaque parse.

(** Everything in the cache is what parsing gives; keys are unique. *)
Definition cache_ok (c : cache) : Prop :=
  NoDup (map fst c) /\ forall k m, In (k, m) c -> parse k = Parsed m.

Lemma cache_get_in c k m : cache_get c k = Some m -> In (k, m) c.
Proof.
  induction c as [|[k' v] c IH]; cbn; [discriminate|].
  destruct (str_eqb k' k) eqn:E; [|auto]. apply str_eqb_eq in E. intros [= <-]. left. congruence.
Qed.
Lemma cache_get_none c k : cache_get c k = None -> ~ In k (map fst c).
Proof.
  induction c as [|[k' v] c IH]; cbn; [tauto|].
  destruct (str_eqb k' k) eqn:E; [discriminate|]. intros H [<-|Hin]; [|now apply IH].
  now rewrite str_eqb_refl in E.
Qed.
Lemma cache_insert_new c k v : ~ In k (map fst c) -> cache_insert c k v = c ++ [(k, v)].
Proof.
  induction c as [|[k' v'] c IH]; cbn; auto. intros H. destruct (str_eqb k' k) eqn:E.
  - apply str_eqb_eq in E. tauto.
  - rewrite IH; auto.
Qed.

Lemma from_str_ok c s : cache_ok c ->
  cache_ok (fst (from_str c s)) /\ snd (from_str c s) = parse s
  /\ (forall k, In k (map fst (fst (from_str c s))) <->
        In k (map fst c) \/ (k = s /\ exists m, parse s = Parsed m)).
Proof.
  intros [Hn Hc]. unfold from_str. destruct (cache_get c s) as [m|] eqn:E.
  - apply cache_get_in in E. cbn. split; [now split|]. split; [symmetry; now apply Hc|].
    intros k. split; [auto|]. intros [H|[-> _]]; auto. apply in_map_iff. exists (s, m). auto.
  - apply cache_get_none in E. destruct (parse s) as [m| |] eqn:Ep; cbn.
    + rewrite cache_insert_new by auto. rewrite map_app. cbn [map fst]. split; [split|split]; auto.
      * rewrite map_app. cbn. apply NoDup_rev in Hn. rewrite <- (rev_involutive (_ ++ _)).
        apply NoDup_rev. rewrite rev_app_distr. cbn. constructor; auto. now rewrite <- in_rev.
      * intros k m' Hin. apply in_app_or in Hin. destruct Hin as [Hin|[[= <- <-]|[]]]; auto.
      * intros k. rewrite in_app_iff. cbn. split; [intros [?|[<-|[]]]; eauto|].
        intros [?|[-> _]]; auto.
    + split; [now split|]. split; auto. intros k. split; auto. intros [?|[_ [m Hm]]]; [auto|discriminate].
    + split; [now split|]. split; auto. intros k. split; auto. intros [?|[_ [m Hm]]]; [auto|discriminate].
Qed.

Lemma calls_ok l : forall c, cache_ok c ->
  cache_ok (fst (calls c l)) /\ snd (calls c l) = map parse l
  /\ (forall k, In k (map fst (fst (calls c l))) <->
        In k (map fst c) \/ (In k l /\ exists m, parse k = Parsed m)).
Proof.
  induction l as [|s l IH]; intros c Hc; cbn.
  - split; auto. split; auto. tauto.
  - destruct (from_str_ok c s Hc) as (H1 & H2 & H3). destruct (from_str c s) as [c1 r]. cbn in *.
    destruct (IH c1 H1) as (H4 & H5 & H6). destruct (calls c1 l) as [c2 rs]. cbn in *.
    split; auto. split; [congruence|]. intros k. rewrite H6, H3.
    split; [intros [[?|[-> ?]]|[? ?]]; auto|]. intros [?|[[<-|?] ?]]; auto.
Qed.

(** ** C17 *)

(** Whatever was parsed before, every call returns what parsing the string afresh returns. *)
Theorem cache_transparent : forall history s,
  snd (from_str (fst (calls [] history)) s) = parse s
  /\ snd (calls [] history) = map parse history.
Proof.
  intros h s. assert (H0 : cache_ok []) by (split; [constructor|intros k m []]).
  destruct (calls_ok h [] H0) as (H1 & H2 & _). split; auto. now apply from_str_ok.
Qed.
Print Assumptions cache_transparent.

(** The cache holds exactly the accepted strings, once each: failures are never cached. *)
Theorem failures_not_cached : forall history,
  NoDup (map fst (fst (calls [] history)))
  /\ forall k, In k (map fst (fst (calls [] history)))
               <-> In k history /\ exists m, parse k = Parsed m.
Proof.
  intros h. assert (H0 : cache_ok []) by (split; [constructor|intros k m []]).
  destruct (calls_ok h [] H0) as ([H1 _] & _ & H3). split; auto. intros k. rewrite H3. cbn. tauto.
Qed.
Print Assumptions failures_not_cached.

Local Transparent parse.
Example cache_ex :
  let h := [lit "a{b:c}"; lit "nonsense"; lit "a{b:c}"; lit "d:e;"] in
  map fst (fst (calls [] h)) = [lit "a{b:c}"; lit "d:e;"]
  /\ nth 1 (snd (calls [] h)) OutOfFuel = Rejected.
Proof. split; vm_compute; reflexivity. Qed.
