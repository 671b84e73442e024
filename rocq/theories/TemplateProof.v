(** Proofs about templates. *)
From Coq Require Import String List Arith NArith Bool Lia.
From Verif Require Import Base TemplateModel TemplateFiles TemplateSpec.
Import ListNotations.
Local Open Scope nat_scope.
Local Open Scope list_scope.

Lemma strip_spec : forall p t r, strip p t = Some r <-> t = p ++ r.
Proof.
  induction p as [|c p IH]; intros t r; cbn; [split; congruence|]. destruct t as [|d t]; [split; discriminate|]. destruct (N.eqb_spec c d) as [->|Hne].
  - rewrite IH. split; [intros ->; reflexivity|congruence].
  - split; [discriminate|congruence].
Qed.
Lemma strip_none : forall p t, strip p t = None <-> forall r, t <> p ++ r.
Proof.
  intros p t. destruct (strip p t) as [r|] eqn:E.
  - apply strip_spec in E. split; [discriminate|]. intros X. destruct (X r E).
  - split; [|reflexivity]. intros _ r X. apply strip_spec in X. congruence.
Qed.

(** The shortest key in front of a closing part. *)
Definition key_at (t k r : text) : Prop := t = k ++ closing ++ r /\ ~ In 10%N k.

Lemma lazy_some : forall t k r, lazy_dots t = Some (k, r) -> key_at t k r /\ forall k' r', key_at t k' r' -> length k <= length k'.
Proof.
  induction t as [|c t IH]; intros k r H; cbn [lazy_dots] in H.
  - change (strip closing []) with (@None text) in H. discriminate.
  - destruct (strip closing (c :: t)) as [r'|] eqn:E.
    + injection H as <- <-. apply strip_spec in E. split; [split; [exact E|intros []]|]. intros. cbn. lia.
    + destruct (N.eqb_spec c 10) as [->|Hc]; [discriminate|]. destruct (lazy_dots t) as [[k' r']|] eqn:F; [|discriminate]. injection H as <- <-. destruct (IH _ _ eq_refl) as [[A B] C]. split.
      * split; [rewrite A at 1; reflexivity|]. intros [X|X]; [congruence|exact (B X)].
      * intros k'' r'' [X Y]. destruct k'' as [|d k''].
        -- exfalso. apply (proj1 (strip_none _ _) E r''). exact X.
        -- cbn in X. injection X as <- X. cbn. apply le_n_S. apply (C k'' r''). split; [exact X|]. intros Z. apply Y. right. exact Z.
Qed.
Lemma lazy_none : forall t, lazy_dots t = None -> forall k r, ~ key_at t k r.
Proof.
  induction t as [|c t IH]; intros H k r [A B]; cbn [lazy_dots] in H.
  - destruct k; discriminate.
  - destruct (strip closing (c :: t)) eqn:E; [discriminate|]. destruct k as [|d k].
    + apply (proj1 (strip_none _ _) E r). exact A.
    + cbn in A. injection A as <- A. destruct (N.eqb_spec c 10) as [->|Hc]; [apply B; left; reflexivity|]. destruct (lazy_dots t) as [[k' r']|]; [discriminate|].
      apply (IH eq_refl k r). split; [exact A|]. intros X. apply B. right. exact X.
Qed.

Lemma match_some : forall t k r, match_at t = Some (k, r) -> placeholder t k r /\ forall k' r', placeholder t k' r' -> length k <= length k'.
Proof.
  intros t k r H. unfold match_at in H. destruct (strip opening t) as [s|] eqn:E; [|discriminate]. apply strip_spec in E. destruct (lazy_some _ _ _ H) as [[A B] C]. split.
  - split; [rewrite E, A; reflexivity|exact B].
  - intros k' r' [X Y]. apply (C k' r'). split; [|exact Y]. rewrite E in X. apply app_inv_head in X. exact X.
Qed.
Lemma match_none : forall t, match_at t = None -> forall k r, ~ placeholder t k r.
Proof.
  intros t H k r [A B]. unfold match_at in H. destruct (strip opening t) as [s|] eqn:E.
  - apply strip_spec in E. apply (lazy_none _ H k r). split; [|exact B]. rewrite E in A. apply app_inv_head in A. exact A.
  - apply (proj1 (strip_none _ _) E (k ++ closing ++ r)). exact A.
Qed.

Lemma find_some : forall t p k r, find_match t = Some (p, k, r) -> t = p ++ opening ++ k ++ closing ++ r /\ ~ In 10%N k /\
  (forall p' s k' r', t = p' ++ s -> placeholder s k' r' -> length p <= length p') /\ (forall k' r', placeholder (opening ++ k ++ closing ++ r) k' r' -> length k <= length k').
Proof.
  induction t as [|c t IH]; intros p k r H; cbn [find_match] in H.
  - change (match_at []) with (@None (text * text)) in H. discriminate.
  - destruct (match_at (c :: t)) as [[k' r']|] eqn:E.
    + injection H as <- <- <-. destruct (match_some _ _ _ E) as [[A B] C]. split; [exact A|]. split; [exact B|]. split; [intros; cbn; lia|]. rewrite A in C. exact C.
    + destruct (find_match t) as [[[p' k'] r']|] eqn:F; [|discriminate]. injection H as <- <- <-. destruct (IH _ _ _ eq_refl) as (A & B & C & D). split; [rewrite A at 1; reflexivity|]. split; [exact B|]. split; [|exact D].
      intros q s k'' r'' X Y. destruct q as [|d q].
      * exfalso. cbn in X. rewrite <- X in Y. exact (match_none _ E _ _ Y).
      * cbn in X. injection X as <- X. cbn. apply le_n_S. exact (C q s k'' r'' X Y).
Qed.
Lemma find_none : forall t, find_match t = None -> forall p s k r, t = p ++ s -> ~ placeholder s k r.
Proof.
  induction t as [|c t IH]; intros H p s k r E X; cbn [find_match] in H.
  - destruct p; [|discriminate]. cbn in E. subst s. destruct X as [X _]. discriminate.
  - destruct (match_at (c :: t)) as [[k' r']|] eqn:F; [discriminate|]. destruct p as [|d p].
    + cbn in E. subst s. exact (match_none _ F _ _ X).
    + cbn in E. injection E as <- E. destruct (find_match t) as [[[p' k'] r']|]; [discriminate|]. exact (IH eq_refl p s k r E X).
Qed.

Lemma pieces_exist : forall t, exists l last, pieces t l last.
Proof.
  intros t. remember (length t) as n. revert t Heqn. induction n as [n IH] using lt_wf_ind. intros t ->. destruct (find_match t) as [[[p k] r]|] eqn:E.
  - destruct (find_some _ _ _ _ E) as (A & B & C & D). destruct (IH (length r)) with (t := r) as (l & last & P); [rewrite A, !app_length; cbn; lia|reflexivity|].
    exists ((p, k) :: l), last. rewrite A in C. rewrite A. apply pieces_key; assumption.
  - exists [], t. constructor. exact (find_none _ E).
Qed.

Lemma app_same_length : forall (A : Type) (a b c d : list A), a ++ b = c ++ d -> length a = length c -> a = c /\ b = d.
Proof. induction a as [|x a IH]; intros b [|y c] d H L; cbn in *; try discriminate; auto. injection H as -> H. destruct (IH b c d H) as [-> ->]; [lia|auto]. Qed.

Lemma pieces_find : forall t l last, pieces t l last -> match l with [] => find_match t = None /\ last = t | (p, k) :: l' => exists r, find_match t = Some (p, k, r) /\ pieces r l' last end.
Proof.
  intros t l last H. inversion H as [t' N|p k r l' last' Hk Hp Hs Hr]; subst.
  - split; [|reflexivity]. destruct (find_match last) as [[[p k] r]|] eqn:E; [|reflexivity]. destruct (find_some _ _ _ _ E) as (A & B & _ & _). exfalso.
    apply (N p (opening ++ k ++ closing ++ r) k r A). split; [reflexivity|exact B].
  - exists r. split; [|exact Hr]. destruct (find_match (p ++ opening ++ k ++ closing ++ r)) as [[[p' k'] r']|] eqn:E.
    + destruct (find_some _ _ _ _ E) as (A & B & C & D). assert (L : length p = length p').
      { apply Nat.le_antisymm; [apply (Hp p' (opening ++ k' ++ closing ++ r') k' r' A); split; [reflexivity|exact B]|apply (C p (opening ++ k ++ closing ++ r) k r eq_refl); split; [reflexivity|exact Hk]]. }
      destruct (app_same_length _ _ _ _ _ A L) as [-> A']. assert (L' : length k = length k').
      { apply Nat.le_antisymm; [apply (Hs k' r'); split; [exact A'|exact B]|apply (D k r); split; [symmetry; exact A'|exact Hk]]. }
      apply app_inv_head in A'. destruct (app_same_length _ _ _ _ _ A' L') as [-> A'']. apply app_inv_head in A''. subst r'. reflexivity.
    + exfalso. apply (find_none _ E p (opening ++ k ++ closing ++ r) k r eq_refl). split; [reflexivity|exact Hk].
Qed.

Lemma pieces_unique : forall t l last l' last', pieces t l last -> pieces t l' last' -> l = l' /\ last = last'.
Proof.
  intros t l last l' last' H. revert l' last'. induction H as [t N|p k r l last Hk Hp Hs Hr IH]; intros l' last' H'.
  - assert (X := pieces_find _ _ _ H'). assert (Y := pieces_find _ _ _ (pieces_end t N)). cbv beta iota in Y. destruct Y as [Y _]. destruct l' as [|[p k] l'].
    + destruct X as [_ ->]. auto.
    + destruct X as (r & X & _). congruence.
  - assert (X := pieces_find _ _ _ H'). assert (Y := pieces_find _ _ _ (pieces_key p k r l last Hk Hp Hs Hr)). cbv beta iota in Y. destruct Y as (r1 & Y & _). destruct l' as [|[p' k'] l'].
    + destruct X as [X _]. rewrite Y in X. discriminate.
    + destruct X as (r2 & X & X2). rewrite Y in X. injection X as <- <- <-. assert (r1 = r) as ->.
      { destruct (find_some _ _ _ _ Y) as (A & _). apply app_inv_head in A. apply app_inv_head in A. apply app_inv_head in A. apply app_inv_head in A. congruence. }
      destruct (IH _ _ X2) as [-> ->]. auto.
Qed.

(** ** Trimming *)

Lemma whitespace_iff : forall c, whitespace c = true <-> In c white_space.
Proof.
  intros c. unfold whitespace. rewrite !orb_true_iff, !andb_true_iff, !N.leb_le, !N.eqb_eq. unfold white_space. cbn [In]. split; [|intros H; repeat (destruct H as [<-|H]; [lia|]); destruct H].
  intros H. destruct (N.leb_spec c 13).
  - assert (c = 9 \/ c = 10 \/ c = 11 \/ c = 12 \/ c = 13)%N as X by lia. intuition auto 10.
  - destruct (N.leb_spec 8192 c); [|intuition auto 40; lia]. destruct (N.leb_spec c 8202); [|intuition auto 40; lia].
    assert (c = 8192 \/ c = 8193 \/ c = 8194 \/ c = 8195 \/ c = 8196 \/ c = 8197 \/ c = 8198 \/ c = 8199 \/ c = 8200 \/ c = 8201 \/ c = 8202)%N as X by lia. clear - X. intuition auto 40.
Qed.
Lemma whitespace_not : forall c, whitespace c = false <-> ~ In c white_space.
Proof. intros c. rewrite <- whitespace_iff. destruct (whitespace c); split; congruence. Qed.

Lemma trimmed_old : forall k key, trimmed k key <-> exists a b, k = a ++ key ++ b /\ Forall (fun c => whitespace c = true) (a ++ b) /\
  (forall c m, key = c :: m -> whitespace c = false) /\ (forall c m, key = m ++ [c] -> whitespace c = false).
Proof.
  intros k key. unfold trimmed. split; intros (a & b & A & B & C & D); exists a, b; (split; [exact A|]); (split; [eapply Forall_impl; [|exact B]; intros c Hc; apply whitespace_iff; exact Hc|]);
    (split; intros c m E; apply whitespace_not; eauto).
Qed.

Lemma trim_start_spec : forall t, exists a, t = a ++ trim_start t /\ Forall (fun c => whitespace c = true) a /\ forall c m, trim_start t = c :: m -> whitespace c = false.
Proof.
  induction t as [|c t (a & A & B & C)]; [exists []; repeat split; [constructor|discriminate]|]. cbn [trim_start]. destruct (whitespace c) eqn:E.
  - exists (c :: a). repeat split; [cbn; rewrite <- A; reflexivity|constructor; assumption|exact C].
  - exists []. repeat split; [constructor|]. intros d m X. injection X as <- _. exact E.
Qed.

Lemma trim_ok : forall t, trimmed t (trim t).
Proof.
  intros t. destruct (trim_start_spec t) as (a & A & B & C). destruct (trim_start_spec (rev (trim_start t))) as (b & A' & B' & C'). apply trimmed_old. unfold trim.
  exists a, (rev b). assert (E : trim_start t = rev (trim_start (rev (trim_start t))) ++ rev b) by (rewrite <- rev_app_distr, <- A'; symmetry; apply rev_involutive). split; [rewrite <- E; exact A|].
  split; [apply Forall_app; split; [exact B|apply Forall_rev; exact B']|]. split.
  - intros c m X. rewrite X in E. cbn in E. exact (C c (m ++ rev b) E).
  - intros c m X. apply (f_equal (@rev N)) in X. rewrite rev_involutive, rev_app_distr in X. cbn in X. exact (C' c (rev m) X).
Qed.

Lemma trimmed_start : forall k key, trimmed k key -> exists b, trim_start k = match key with [] => [] | _ => key ++ b end /\ Forall (fun c => whitespace c = true) b /\ (key = [] -> b = []).
Proof.
  intros k key H. apply trimmed_old in H. destruct H as (a & b & -> & F & C & _). apply Forall_app in F. destruct F as [Fa Fb]. induction Fa as [|x a Hx Fa IH]; cbn [app trim_start].
  - destruct key as [|c m].
    + exists []. split; [|auto]. clear C. cbn [app]. induction Fb as [|y b Hy Fb IH]; [reflexivity|]. cbn. rewrite Hy. exact IH.
    + exists b. split; [|split; [exact Fb|discriminate]]. cbn. rewrite (C c m eq_refl). reflexivity.
  - rewrite Hx. exact IH.
Qed.
Lemma trim_start_white : forall b m, Forall (fun c => whitespace c = true) b -> trim_start (b ++ m) = trim_start m.
Proof. intros b m F. induction F as [|x b Hx F IH]; cbn; [reflexivity|]. rewrite Hx. exact IH. Qed.
Lemma trim_start_id : forall m, (forall c m', m = c :: m' -> whitespace c = false) -> trim_start m = m.
Proof. intros [|c m] H; [reflexivity|]. cbn. rewrite (H c m eq_refl). reflexivity. Qed.

Lemma trim_iff : forall k key, trimmed k key <-> key = trim k.
Proof.
  intros k key. split; [|intros ->; apply trim_ok]. intros H. destruct (trimmed_start k key H) as (b & E & F & _). unfold trim. rewrite E. apply trimmed_old in H. destruct H as (a & b' & _ & _ & C & D).
  destruct key as [|c m]; [reflexivity|]. rewrite rev_app_distr, trim_start_white by (apply Forall_rev; exact F).
  rewrite trim_start_id; [symmetry; apply rev_involutive|]. intros d m' X. apply (D d (rev m')). rewrite <- (rev_involutive (c :: m)), X. reflexivity.
Qed.

(** ** Writing *)

Lemma write_expands : forall subs, msorted subs -> forall t l last, pieces t l last -> forall fuel, length l < fuel ->
  exists out x, template_write fuel subs t = (out, x) /\ forall out' x', expands subs l last out' x' <-> out' = out /\ x' = x.
Proof.
  intros subs S t l. revert t. induction l as [|[p k] l IH]; intros t last H fuel Hf; (destruct fuel as [|fuel]; [cbn in Hf; lia|]); unfold template_write; cbn [replace_all_streaming]; apply pieces_find in H.
  - destruct H as [H ->]. rewrite H. exists t, Done. split; [reflexivity|]. intros out' x'. split; [intros X; inversion X; auto|intros [-> ->]; constructor].
  - destruct H as (r & H & H'). rewrite H. destruct (map_get (trim k) subs) as [[w [|]]|] eqn:E.
    + destruct (IH r last H' fuel) as (out & x & W & X); [cbn in Hf; lia|]. unfold template_write in W. rewrite W. exists (p ++ w ++ out), x. split; [reflexivity|]. intros out' x'. split.
      * intros Y. inversion Y as [|? ? ? ? ? w' out'' ? T I Y'|? ? ? ? ? w' T I|? ? ? ? ? T I]; subst; apply trim_iff in T; subst.
        -- apply (proj2 (map_get_In _ _ _ S)) in I. rewrite E in I. injection I as <-. apply X in Y'. destruct Y' as [-> ->]. auto.
        -- apply (proj2 (map_get_In _ _ _ S)) in I. congruence.
        -- apply (proj2 (map_get_None _ _ S)) in I. congruence.
      * intros [-> ->]. apply (expands_key subs p k l last (trim k)); [apply trim_ok|apply (proj1 (map_get_In _ _ _ S)); exact E|apply X; auto].
    + exists (p ++ w), Failed. split; [reflexivity|]. intros out' x'. split.
      * intros Y. inversion Y as [|? ? ? ? ? w' out'' ? T I Y'|? ? ? ? ? w' T I|? ? ? ? ? T I]; subst; apply trim_iff in T; subst.
        -- apply (proj2 (map_get_In _ _ _ S)) in I. congruence.
        -- apply (proj2 (map_get_In _ _ _ S)) in I. rewrite E in I. injection I as <-. auto.
        -- apply (proj2 (map_get_None _ _ S)) in I. congruence.
      * intros [-> ->]. apply (expands_failed subs p k l last (trim k)); [apply trim_ok|apply (proj1 (map_get_In _ _ _ S)); exact E].
    + exists p, Panicked. split; [reflexivity|]. intros out' x'. split.
      * intros Y. inversion Y as [|? ? ? ? ? w' out'' ? T I Y'|? ? ? ? ? w' T I|? ? ? ? ? T I]; subst; apply trim_iff in T; subst.
        -- apply (proj2 (map_get_In _ _ _ S)) in I. congruence.
        -- apply (proj2 (map_get_In _ _ _ S)) in I. congruence.
        -- auto.
      * intros [-> ->]. apply (expands_missing subs p k l last (trim k)); [apply trim_ok|apply (proj1 (map_get_None _ _ S)); exact E].
Qed.


Lemma supplied_sorted : forall calls, msorted (supplied calls).
Proof.
  intros calls. unfold supplied. assert (X : forall subs, msorted subs -> msorted (fold_left (fun subs c => substitute (fst c) (snd c) subs) calls subs)).
  { induction calls as [|c calls IH]; intros subs H; cbn; [exact H|]. apply IH. apply map_insert_sorted. exact H. }
  apply X. apply msorted_nil.
Qed.

Lemma supplied_last : forall calls key w, In (key, w) (supplied calls) <-> exists a b, calls = a ++ (key, w) :: b /\ ~ In key (map fst b).
Proof.
  intros calls key w. unfold supplied. assert (X : forall calls subs, msorted subs -> (In (key, w) (fold_left (fun subs c => substitute (fst c) (snd c) subs) calls subs) <->
    (In (key, w) subs /\ ~ In key (map fst calls)) \/ exists a b, calls = a ++ (key, w) :: b /\ ~ In key (map fst b))).
  { clear calls. induction calls as [|[k v] calls IH]; intros subs S; cbn [fold_left map fst snd].
    - split; [intros H; left; split; [exact H|intros []]|]. intros [[H _]|(a & b & H & _)]; [exact H|]. destruct a; discriminate.
    - rewrite IH by (apply map_insert_sorted; exact S). unfold substitute. rewrite map_insert_In by exact S. split.
      + intros [[[[-> ->]|[Hne H]] N]|(a & b & -> & N)].
        * right. exists [], calls. auto.
        * left. split; [exact H|]. intros [K|K]; [congruence|exact (N K)].
        * right. exists ((k, v) :: a), b. auto.
      + intros [[H N]|(a & b & E & N)].
        * left. split; [right; split; [intros ->; apply N; left; reflexivity|exact H]|]. intros K. apply N. right. exact K.
        * destruct a as [|c a]; cbn in E.
          -- injection E as -> -> ->. left. auto.
          -- injection E as <- ->. right. exists a, b. auto. }
  rewrite X by apply msorted_nil. split; [intros [[[] _]|H]; exact H|intros H; right; exact H].
Qed.

Lemma supplied_keys : forall calls key, In key (map fst (supplied calls)) <-> In key (map fst calls).
Proof.
  intros calls key. unfold supplied. assert (X : forall calls subs, In key (map fst (fold_left (fun subs c => substitute (fst c) (snd c) subs) calls subs)) <-> In key (map fst subs) \/ In key (map fst calls)).
  { clear calls. induction calls as [|[k v] calls IH]; intros subs; cbn [fold_left map fst snd]; [cbn; tauto|]. rewrite IH. unfold substitute. rewrite map_insert_keys. cbn [In]. intuition congruence. }
  rewrite X. cbn. tauto.
Qed.

Lemma app_shorter : forall (A : Type) (a b c d : list A), a ++ b = c ++ d -> length c < length a -> exists q, q <> [] /\ a = c ++ q /\ d = q ++ b.
Proof.
  induction a as [|x a IH]; intros b [|y c] d H L; cbn in *; try lia.
  - exists (x :: a). split; [discriminate|]. auto.
  - injection H as -> H. destruct (IH b c d H) as (q & Q & -> & ->); [lia|]. exists q. auto.
Qed.

(** Templates written from pieces: text without an opening part, keys without a closing part. *)
Lemma template_of_pieces : forall l last, (forall p k, In (p, k) l -> ~ occurs opening p /\ ~ In 10%N k /\ ~ occurs closing k) -> ~ occurs opening last -> pieces (template_of l last) l last.
Proof.
  induction l as [|[p k] l IH]; intros last H Hl; unfold template_of; cbn [map concat fst snd].
  - constructor. intros p s k r -> [X _]. apply Hl. exists p, (k ++ closing ++ r). rewrite X. reflexivity.
  - destruct (H p k (or_introl eq_refl)) as (Hp & Hn & Hk). rewrite <- !app_assoc. apply pieces_key.
    + exact Hn.
    + intros p' s k' r' E [X _]. apply Nat.le_ngt. intros L. destruct (app_shorter _ _ _ _ _ E L) as (q & Q & -> & ->). clear E L. destruct q as [|a [|b [|c q]]]; cbn in X; try congruence.
      injection X as -> -> -> X. apply Hp. exists p', q. reflexivity.
    + intros k' r' [X _]. apply app_inv_head in X. apply Nat.le_ngt. intros L. destruct (app_shorter _ _ _ _ _ X L) as (q & Q & -> & E). clear X L. destruct q as [|a [|b [|c q]]]; cbn in E; try congruence.
      injection E as <- <- <- E. apply Hk. exists k', q. reflexivity.
    + apply (IH last); [|exact Hl]. intros p' k' I. apply H. right. exact I.
Qed.

Lemma pieces_length : forall t l last, pieces t l last -> length l <= length t.
Proof. intros t l last H. induction H; [apply Nat.le_0_l|]. cbn [length]. repeat (rewrite app_length). cbn. lia. Qed.

Lemma write_outcome : forall calls t, exists l last out x, pieces t l last /\ (forall l' last', pieces t l' last' -> l' = l /\ last' = last) /\
  (forall fuel, length t < fuel -> template_write fuel (supplied calls) t = (out, x)) /\ expands (supplied calls) l last out x /\ (forall out' x', expands (supplied calls) l last out' x' -> out' = out /\ x' = x).
Proof.
  intros calls t. destruct (pieces_exist t) as (l & last & P). pose proof (supplied_sorted calls) as S. pose proof (pieces_length _ _ _ P) as L.
  destruct (write_expands _ S _ _ _ P (Datatypes.S (length t))) as (out & x & W & X); [lia|]. exists l, last, out, x. split; [exact P|]. split; [intros l' last' P'; exact (pieces_unique _ _ _ _ _ P' P)|]. split.
  - intros fuel Hf. destruct (write_expands _ S _ _ _ P fuel) as (out' & x' & W' & X'); [lia|]. rewrite W'. destruct (proj1 (X' out x) (proj2 (X out x) (conj eq_refl eq_refl))) as [-> ->]. reflexivity.
  - split; [apply X; auto|]. intros out' x' Y. apply X. exact Y.
Qed.

(** All functions succeed: panics exactly for a key without a substitution. *)
Lemma write_panics : forall calls t, (forall key w ok, In (key, (w, ok)) calls -> ok = true) -> forall l last, pieces t l last -> forall fuel, length t < fuel ->
  (snd (template_write fuel (supplied calls) t) = Panicked <-> exists p k key, In (p, k) l /\ trimmed k key /\ ~ In key (map fst calls)) /\
  (snd (template_write fuel (supplied calls) t) <> Panicked -> snd (template_write fuel (supplied calls) t) = Done).
Proof.
  intros calls t A l last P fuel Hf. pose proof (pieces_length _ _ _ P) as L. destruct (write_expands _ (supplied_sorted calls) _ _ _ P fuel) as (out & x & W & X); [lia|]. rewrite W. cbn [snd].
  assert (E : expands (supplied calls) l last out x) by (apply X; auto). clear - A E. induction E as [last|p k l last key w out x T I E IH|p k l last key w T I|p k l last key T I].
  - split; [|auto]. split; [discriminate|]. intros (p & k & key & [] & _).
  - destruct IH as [IH1 IH2]. split; [|exact IH2]. rewrite IH1. split.
    + intros (p' & k' & key' & Y). exists p', k', key'. cbn. tauto.
    + intros (p' & k' & key' & [Y|Y] & T' & N); [|exists p', k', key'; auto]. injection Y as <- <-. apply trim_iff in T. apply trim_iff in T'. subst. exfalso. apply N. apply supplied_keys. apply (in_map fst) in I. exact I.
  - exfalso. apply supplied_last in I. destruct I as (a & b & E & _). discriminate (A key w false). rewrite E. apply in_or_app. right. left. reflexivity.
  - split; [|congruence]. split; [|reflexivity]. intros _. exists p, k, key. split; [left; reflexivity|]. split; [exact T|]. intros K. apply I. apply supplied_keys. exact K.
Qed.

(** The whole output of a template written from pieces. *)
Lemma write_template_of : forall calls value l last, (forall p k, In (p, k) l -> ~ occurs opening p /\ ~ In 10%N k /\ ~ occurs closing k) -> ~ occurs opening last ->
  (forall p k, In (p, k) l -> exists key, trimmed k key /\ In (key, (value k, true)) (supplied calls)) ->
  forall fuel, length (template_of l last) < fuel -> template_write fuel (supplied calls) (template_of l last) = (concat (map (fun pk => fst pk ++ value (snd pk)) l) ++ last, Done).
Proof.
  intros calls value l last A B V fuel Hf. pose proof (template_of_pieces l last A B) as P. pose proof (pieces_length _ _ _ P) as L.
  destruct (write_expands _ (supplied_sorted calls) _ _ _ P fuel) as (out & x & W & X); [lia|]. rewrite W.
  assert (E : expands (supplied calls) l last (concat (map (fun pk => fst pk ++ value (snd pk)) l) ++ last) Done).
  { clear - V. induction l as [|[p k] l IH]; cbn [map concat fst snd]; [constructor|]. destruct (V p k (or_introl eq_refl)) as (key & T & I). rewrite <- !app_assoc.
    apply (expands_key _ p k l last key); [exact T|exact I|]. apply IH. intros p' k' Y. apply (V p' k'). right. exact Y. }
  apply X in E. destruct E as [-> <-]. reflexivity.
Qed.

(** ** Targets *)


Lemma generate_all_spec : forall calls w, msorted (cw_targets w) ->
  msorted (cw_targets (generate_all calls w)) /\
  (forall key, In key (map fst (cw_targets (generate_all calls w))) <-> In key (map fst (cw_targets w))) /\
  (forall key b, In (key, b) (cw_targets w) -> In (key, b ++ concat (map snd (filter (fun c => if cmp_dec (fst c) key then true else false) calls))) (cw_targets (generate_all calls w))) /\
  cw_files (generate_all calls w) = cw_files w ++ filter (fun c => negb (map_mem (fst c) (cw_targets w))) calls.
Proof.
  induction calls as [|[k g] calls IH]; intros w S; cbn [generate_all fold_left filter map concat fst snd].
  - split; [exact S|]. split; [tauto|]. split; [intros key b I; rewrite app_nil_r; exact I|rewrite app_nil_r; reflexivity].
  - destruct (IH (generate_code k g w)) as (A & B & C & D); [unfold generate_code; destruct (map_get k (cw_targets w)); cbn; [apply map_insert_sorted; exact S|exact S]|].
    change (fold_left (fun w0 c => generate_code (fst c) (snd c) w0) calls (generate_code k g w)) with (generate_all calls (generate_code k g w)).
    split; [exact A|]. unfold map_mem in *. destruct (map_get k (cw_targets w)) as [b0|] eqn:E.
    + assert (K : forall key, In key (map fst (map_insert k (b0 ++ g) (cw_targets w))) <-> In key (map fst (cw_targets w))).
      { intros key. rewrite map_insert_keys. split; [|tauto]. intros [->|H]; [|exact H]. apply (proj1 (map_get_In _ _ _ S)) in E. apply (in_map fst) in E. exact E. }
      unfold generate_code in *. rewrite E in *. cbn [cw_targets cw_files] in B, C, D. split; [intros key; rewrite <- K; exact (B key)|]. split.
      * intros key b I. destruct (cmp_dec k key) as [->|Hne].
        -- apply (proj2 (map_get_In _ _ _ S)) in I. rewrite E in I. injection I as ->. cbn [map concat snd]. rewrite app_assoc. apply C. apply map_insert_In; auto.
        -- apply C. apply map_insert_In; auto.
      * cbn [negb]. etransitivity; [exact D|]. f_equal. apply filter_ext. intros [k' g']. cbn [fst]. f_equal. rewrite map_get_insert by exact S. destruct (cmp_dec k' k) as [->|]; [rewrite E|]; reflexivity.
    + unfold generate_code in *. rewrite E in *. cbn [cw_targets cw_files] in B, C, D. split; [exact B|]. split.
      * intros key b I. destruct (cmp_dec k key) as [->|Hne]; [|exact (C key b I)]. apply (proj2 (map_get_In _ _ _ S)) in I. congruence.
      * cbn [negb]. etransitivity; [exact D|]. rewrite <- app_assoc. reflexivity.
Qed.

(** ** The templates of the C++ code generator *)

Fixpoint keys_in (fuel : nat) (t : text) : option (list text * text) :=
  match fuel with
  | O => None
  | S fuel' => match find_match t with
               | None => Some ([], t)
               | Some (_, k, r) => match keys_in fuel' r with Some (ks, last) => Some (k :: ks, last) | None => None end
               end
  end.
Lemma keys_in_spec : forall fuel t ks last, keys_in fuel t = Some (ks, last) -> forall l last', pieces t l last' -> map snd l = ks /\ last' = last.
Proof.
  induction fuel as [|fuel IH]; intros t ks last H l last' P; [discriminate|]. cbn in H. apply pieces_find in P. destruct l as [|[p k] l].
  - destruct P as [P ->]. rewrite P in H. injection H as <- <-. auto.
  - destruct P as (r & P & P'). rewrite P in H. destruct (keys_in fuel r) as [[ks' last'']|] eqn:E; [|discriminate]. injection H as <- <-. destruct (IH _ _ _ E _ _ P') as [A B]. cbn. rewrite A. auto.
Qed.

Definition text_eqb (a b : text) : bool := if cmp_dec a b then true else false.
Definition file_check (e : string * text * list string) : bool :=
  let '(_, t, keys) := e in
  match keys_in 20 t with
  | Some (ks, _) => forallb (fun k => existsb (text_eqb (trim k)) (map chars keys)) ks
  | None => false
  end.
Definition file_use (e : string * text * list string) : bool :=
  let '(_, t, keys) := e in
  match keys_in 20 t with
  | Some (ks, _) => forallb (fun key => existsb (fun k => text_eqb (trim k) (chars key)) ks) keys
  | None => false
  end.
Lemma files_check : forallb file_check cpp_templates = true.
Proof. vm_compute. reflexivity. Qed.
Lemma files_use : forallb (fun e => String.eqb (fst (fst e)) "LL parser_impl.h" || file_use e) cpp_templates = true.
Proof. vm_compute. reflexivity. Qed.

Lemma templates_filled : forall name t keys, In (name, t, keys) cpp_templates -> forall calls, map fst calls = map chars keys -> (forall key w ok, In (key, (w, ok)) calls -> ok = true) ->
  forall fuel, length t < fuel -> snd (template_write fuel (supplied calls) t) = Done.
Proof.
  intros name t keys I calls K A fuel Hf. destruct (pieces_exist t) as (l & last & P). destruct (write_panics calls t A l last P fuel Hf) as [X Y]. apply Y. intros Z. apply X in Z. destruct Z as (p & k & key & J & T & N).
  pose proof (proj1 (forallb_forall _ _) files_check _ I) as C. unfold file_check in C. destruct (keys_in 20 t) as [[ks last']|] eqn:E; [|discriminate].
  destruct (keys_in_spec _ _ _ _ E _ _ P) as [M _]. rewrite forallb_forall in C. specialize (C k). rewrite <- M in C. specialize (C (in_map snd _ _ J)). apply existsb_exists in C. destruct C as (key' & J' & Q).
  unfold text_eqb in Q. destruct (cmp_dec (trim k) key') as [<-|]; [|discriminate]. apply trim_iff in T. subst key. apply N. rewrite K. exact J'.
Qed.

Lemma templates_used : forall name t keys, In (name, t, keys) cpp_templates -> name <> "LL parser_impl.h"%string -> forall key, In key keys -> forall l last, pieces t l last -> exists p k, In (p, k) l /\ trimmed k (chars key).
Proof.
  intros name t keys I Hn key J l last P. pose proof (proj1 (forallb_forall _ _) files_use _ I) as C. cbn [fst] in C. destruct (String.eqb_spec name "LL parser_impl.h") as [->|_]; [congruence|]. cbn [orb] in C.
  unfold file_use in C. destruct (keys_in 20 t) as [[ks last']|] eqn:E; [|discriminate]. destruct (keys_in_spec _ _ _ _ E _ _ P) as [M _]. rewrite forallb_forall in C. specialize (C key J).
  apply existsb_exists in C. destruct C as (k & J' & Q). unfold text_eqb in Q. destruct (cmp_dec (trim k) (chars key)) as [Q'|]; [|discriminate]. rewrite <- M in J'. apply in_map_iff in J'. destruct J' as ([p k'] & <- & J').
  exists p, k'. split; [exact J'|]. apply trim_iff. symmetry. exact Q'.
Qed.

Lemma expands_last : forall subs l last out x, expands subs l last out x -> x = Done -> exists o, out = o ++ last.
Proof.
  intros subs l last out x E. induction E; intros X; try discriminate; [exists []; reflexivity|]. destruct (IHE X) as [o ->]. exists (p ++ w ++ o). rewrite <- !app_assoc. reflexivity.
Qed.

Fixpoint occursb (p t : text) : bool :=
  match strip p t with Some _ => true | None => match t with [] => false | _ :: t' => occursb p t' end end.
Lemma occursb_ok : forall p t, occursb p t = true -> occurs p t.
Proof.
  intros p. induction t as [|c t IH]; cbn; (destruct (strip p _) as [r|] eqn:E; [apply strip_spec in E; intros _; exists [], r; exact E|]); [discriminate|].
  intros H. destruct (IH H) as (a & b & ->). exists (c :: a), b. reflexivity.
Qed.
Lemma ll_entry_check : match keys_in 20 ll_parser_impl_h with Some (_, last) => occursb (chars "{grammar_entry_non_terminal}") last | None => false end = true.
Proof. vm_compute. reflexivity. Qed.

Lemma ll_entry_left : forall calls, map fst calls = map chars ["visitor_enter_switch"; "visitor_exit_switch"; "grammar_entry_non_terminal"; "non_terminal_enum_variants"]%string ->
  (forall key w ok, In (key, (w, ok)) calls -> ok = true) ->
  forall fuel, length ll_parser_impl_h < fuel -> occurs (chars "{grammar_entry_non_terminal}") (fst (template_write fuel (supplied calls) ll_parser_impl_h)).
Proof.
  intros calls K A fuel Hf. destruct (write_outcome calls ll_parser_impl_h) as (l & last & out & x & P & _ & W & E & _).
  assert (D : snd (template_write fuel (supplied calls) ll_parser_impl_h) = Done) by (eapply templates_filled; [|exact K|exact A|exact Hf]; do 6 right; left; reflexivity).
  rewrite (W fuel Hf) in *. cbn in D. subst x. cbn [fst]. destruct (expands_last _ _ _ _ _ E eq_refl) as [o ->].
  pose proof ll_entry_check as X. destruct (keys_in 20 ll_parser_impl_h) as [[ks last']|] eqn:F; [|discriminate]. destruct (keys_in_spec _ _ _ _ F _ _ P) as [_ ->]. apply occursb_ok in X.
  destruct X as (a & b & ->). exists (o ++ a), b. rewrite <- !app_assoc. reflexivity.
Qed.
