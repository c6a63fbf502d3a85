(** * Facts about reading *)
From Coq Require Import String Ascii.
From Coq Require Import List NArith Arith Bool Lia ZifyBool ZifyN Permutation.
From Verif Require Import Base BaseFacts Text Path PathFacts Sources SpecPragma PragmaRun Read SpecRead.
Import ListNotations.
Local Open Scope nat_scope.

Lemma mem_path c l : mem path_eqb c l = true <-> exists c', In c' l /\ same_path c c'.
Proof.
  rewrite mem_true. split; intros (x & A & B); exists x; split; auto; now apply same_path_eqb.
Qed.
Lemma mem_path_false c l : mem path_eqb c l = false <-> forall c', In c' l -> ~ same_path c c'.
Proof.
  split.
  - intros H c' I S. assert (mem path_eqb c l = true) by (apply mem_path; eauto). congruence.
  - intros H. destruct (mem path_eqb c l) eqn:E; auto. apply mem_path in E as (c' & I & S). elim (H c'); auto.
Qed.

Lemma FOP_snoc {A} (R : A -> A -> Prop) l x : ForallOrdPairs R l -> (forall y, In y l -> R y x) -> ForallOrdPairs R (l ++ [x]).
Proof.
  induction 1 as [|y l F D IH]; intros H; simpl.
  - constructor; auto. constructor.
  - constructor; [|apply IH; intros; apply H; now right].
    apply Forall_forall. intros z I. apply in_app_iff in I as [I|[<-|[]]]; [rewrite Forall_forall in F; auto|apply H; now left].
Qed.

Lemma path_keys_distinct {V} (m : list (list N * V)) :
  keys_distinct path_eqb m <-> ForallOrdPairs (fun a b => ~ same_path (fst a) (fst b)) m.
Proof.
  induction m as [|[k v] m IH]; simpl.
  - split; auto. constructor.
  - rewrite lookup_None by apply path_eqb_equiv. split.
    + intros [A B]. constructor; [|now apply IH]. apply Forall_forall. intros [k' v'] I S. simpl in S.
      apply same_path_eqb in S. now rewrite (A _ _ I) in S.
    + intros H; inversion H as [|? ? F D]; subst. split; [|now apply IH]. intros k' v' I. rewrite Forall_forall in F.
      destruct (path_eqb k k') eqn:E; auto. apply same_path_eqb in E. elim (F _ I). exact E.
Qed.

Lemma lookup_insert_path {V} x k v (m : list (list N * V)) :
  lookup path_eqb x (insert path_eqb k v m) = if path_eqb x k then Some v else lookup path_eqb x m.
Proof. apply lookup_insert, path_eqb_equiv. Qed.

Section ReadFacts.
  Context (get_includes : str -> list str).
  Context (glob_with : str -> result (list glob_item) str).
  Context (canonicalize : path -> option path).
  Context (read : path -> result str str).
  Context (root : option path) (content : str).

  Notation wanted := (wanted get_includes read root content).
  Notation matched := (matched get_includes glob_with read root content).
  Notation root_canonical := (root_canonical canonicalize root).
  Notation glob_result := (glob_result glob_with).
  Notation read_as := (read_as get_includes glob_with canonicalize read root content).
  Notation read_item := (read_item get_includes canonicalize read).
  Notation read_include := (read_include get_includes glob_with canonicalize read).
  Notation read_loop := (read_loop get_includes glob_with canonicalize read).

  Lemma wanted_mono log x q : wanted log q -> wanted (log ++ x) q.
  Proof. intros [text I|p c text I R J]; [now constructor|]. econstructor; eauto. apply in_app_iff. auto. Qed.
  Lemma matched_mono log x i : matched log i -> matched (log ++ x) i.
  Proof. intros (q & items & W & G & I). exists q, items. split; auto using wanted_mono. Qed.

  Lemma wanted_snoc log p q : wanted (log ++ [p]) q ->
    wanted log q \/ exists c, read p = Ok c /\ In q (resolved_includes get_includes (Some p) c).
  Proof.
    intros [text I|p' c text I R J]; [left; now constructor|].
    apply in_app_iff in I as [I|[<-|[]]].
    - left. econstructor; eauto.
    - right. exists c. split; auto. now apply in_map.
  Qed.

  Definition entry_ok (names log : list path) (p : path) (src : included_source) : Prop :=
    match src with
    | Content id c ci =>
        ci = char_offs 0 c /\ 0 < id /\
        exists p', nth_error names id = Some p' /\ same_path p p' /\ read p' = Ok c
    | SourceError e =>
        exists p', same_path p p' /\
          ((In p' log /\ exists e', read p' = Err e' /\ e = p' ++ lit ": " ++ e') \/ matched log (G_Err p' e))
    | Duplicate => exists p', same_path p p' /\ matched log (G_Ok p') /\ canonicalize p' <> None
    end.

  Definition found_ok (log : list path) (id : nat) (p : path) (src : option included_source) : Prop :=
    match src with
    | Some (Content id' c _) => id' = id /\ read p = Ok c
    | Some (SourceError e) =>
        (exists e', read p = Err e' /\ e = p ++ lit ": " ++ e') \/
        exists p', same_path p p' /\ matched log (G_Err p' e)
    | _ => False
    end.

  Lemma entry_ok_mono names log x y p src : entry_ok names log p src -> entry_ok (names ++ x) (log ++ y) p src.
  Proof.
    destruct src as [id c ci|e|]; simpl.
    - intros (A & B & p' & N & S & R). split; auto. split; auto. exists p'. split; auto.
      rewrite nth_error_app1; auto. apply nth_error_Some. congruence.
    - intros (p' & S & [[I R]|M]); exists p'; split; auto; [left; split; auto; apply in_app_iff; auto|right; now apply matched_mono].
    - intros (p' & S & M & C). exists p'. split; auto. split; auto. now apply matched_mono.
  Qed.

  Lemma found_ok_mono log y id p src : found_ok log id p src -> found_ok (log ++ y) id p src.
  Proof.
    destruct src as [[id' c ci|e|]|]; simpl; auto.
    intros [H|(p' & S & M)]; auto. right. exists p'. split; auto. now apply matched_mono.
  Qed.

  Definition respects : Prop :=
    forall p q c d, same_path p q -> canonicalize p = Some c -> canonicalize q = Some d -> same_path c d.

  Definition root_name : str := match root with Some p => p | None => lit "inline" end.

  (** The state in the loop: [log] has been read, the includes [qs] have been
      dealt with, [cur] is being dealt with, up to the items [part]. *)
  Definition seen (qs : list path) (part : list glob_item) (i : glob_item) : Prop :=
    (exists q items, In q qs /\ glob_with q = Ok items /\ In i items) \/ In i part.

  Record inv (log qs cur : list path) (part : list glob_item) (st : reading) : Prop := {
    iv_names : rd_names st = root_name :: log;
    iv_canon : exists cs, rd_canonical st = root_canonical ++ cs /\
                 Forall2 (fun p c => canonicalize p = Some c) log cs /\
                 ForallOrdPairs (fun c c' => ~ same_path c c') (rd_canonical st);
    iv_why : forall l1 p l2, log = l1 ++ p :: l2 -> matched l1 (G_Ok p);
    iv_wanted : forall q, wanted log q <-> In q (qs ++ cur ++ rd_pending st);
    iv_globbed : forall q, In q qs -> lookup path_eqb q (rd_globs st) <> None;
    iv_globs : forall q g, lookup path_eqb q (rd_globs st) = Some g ->
                 exists q', same_path q q' /\ In q' qs /\ g = glob_result q';
    iv_part : forall i, In i part -> matched log i;
    iv_all : forall p c, seen qs part (G_Ok p) -> canonicalize p = Some c -> mem path_eqb c (rd_canonical st) = true;
    iv_distinct : keys_distinct path_eqb (rd_content st);
    iv_content : forall p src, lookup path_eqb p (rd_content st) = Some src -> entry_ok (rd_names st) log p src;
    iv_known : forall i, seen qs part i -> (forall p, i = G_Ok p -> canonicalize p <> None) ->
                 lookup path_eqb (item_path i) (rd_content st) <> None;
    iv_found : respects -> forall id p, 0 < id -> nth_error (rd_names st) id = Some p ->
                 found_ok log id p (lookup path_eqb p (rd_content st))
  }.

  Lemma seen_snoc qs part i j : seen qs (part ++ [i]) j <-> seen qs part j \/ j = i.
  Proof. unfold seen. rewrite in_app_iff. simpl. firstorder. Qed.

  Lemma insert_known {V} k v (m : list (list N * V)) x : lookup path_eqb x m <> None -> lookup path_eqb x (insert path_eqb k v m) <> None.
  Proof. rewrite lookup_insert_path. now destruct (path_eqb x k). Qed.

  Lemma path_refl p : path_eqb p p = true.
  Proof. apply path_eqb_equiv. Qed.

  Lemma read_item_inv log qs q items part st i :
    inv log qs [q] part st -> glob_with q = Ok items -> In i items ->
    exists log', inv log' qs [q] (part ++ [i]) (read_item st i).
  Proof.
    intros [NA CA WH WA GD GS PA AL DI CO KN FO] GW II.
    assert (MI : matched log i).
    { exists q, items. split; auto. apply WA. rewrite !in_app_iff. simpl. auto. }
    destruct i as [p|p e]; simpl.
    - destruct (canonicalize p) as [c|] eqn:C.
      + destruct (mem path_eqb c (rd_canonical st)) eqn:M.
        * (* a duplicate *)
          assert (LK : forall x, lookup path_eqb x (rd_content st) <> None ->
             lookup path_eqb x (match lookup path_eqb p (rd_content st) with Some _ => rd_content st | None => insert path_eqb p Duplicate (rd_content st) end)
             = lookup path_eqb x (rd_content st)).
          { intros x N. destruct (lookup path_eqb p (rd_content st)) eqn:L; auto.
            rewrite lookup_insert_path. destruct (path_eqb x p) eqn:E; auto.
            rewrite (lookup_cong path_eqb path_eqb_equiv x p) in N by auto. congruence. }
          exists log. constructor; simpl; auto.
          -- intros j J. apply in_app_iff in J as [J|[<-|[]]]; auto.
          -- intros p' c' S C'. apply seen_snoc in S as [S|S]; eauto. injection S as ->. congruence.
          -- destruct (lookup path_eqb p (rd_content st)); auto. apply keys_distinct_insert; auto. apply path_eqb_equiv.
          -- intros p' src. destruct (lookup path_eqb p (rd_content st)) eqn:L; auto. rewrite lookup_insert_path.
             destruct (path_eqb p' p) eqn:E; auto. intros Q; injection Q as <-. simpl. exists p.
             split; [now apply same_path_eqb|]. split; auto. congruence.
          -- intros j S NN. apply seen_snoc in S as [S|S].
             ++ specialize (KN j S NN). rewrite LK; auto.
             ++ subst j. simpl. destruct (lookup path_eqb p (rd_content st)) eqn:L; [congruence|].
                rewrite lookup_insert_path, path_refl. discriminate.
          -- intros RS id p' P N. specialize (FO RS id p' P N). rewrite LK; auto.
             intros Q. rewrite Q in FO. exact FO.
        * (* a new file *)
          assert (NC : forall c', In c' (rd_canonical st) -> ~ same_path c' c).
          { intros c' I S. rewrite mem_path_false in M. elim (M c' I). now symmetry. }
          set (src := match read p with Err e => SourceError (p ++ lit ": " ++ e) | Ok text => Content (List.length (rd_names st)) text (char_offs 0 text) end).
          exists (log ++ [p]). constructor; simpl.
          -- rewrite NA. reflexivity.
          -- destruct CA as (cs & CE & F2 & FP). exists (cs ++ [c]). rewrite CE, app_assoc. split; auto. split.
             ++ apply Forall2_app; auto.
             ++ rewrite <- CE. apply FOP_snoc; auto.
          -- intros l1 p' l2 E. destruct l2 as [|y l2] using rev_ind.
             ++ apply app_inj_tail in E as [<- <-]. exact MI.
             ++ rewrite app_comm_cons, app_assoc in E. apply app_inj_tail in E as [E _]. eauto.
          -- intros q'. split.
             ++ intros W. apply wanted_snoc in W as [W|(t & R & I)].
                ** apply WA in W. rewrite ?in_app_iff in *. simpl in *. rewrite ?in_app_iff in *. tauto.
                ** rewrite in_app_iff. simpl. rewrite in_app_iff. right. right. right. rewrite R. exact I.
             ++ intros I. assert (I' : In q' (qs ++ [q] ++ rd_pending st) \/ In q' (match src with Content _ text _ => resolved_includes get_includes (Some p) text | _ => [] end)).
                { rewrite ?in_app_iff in *. simpl in *. rewrite ?in_app_iff in *. tauto. }
                destruct I' as [I'|I']; [apply wanted_mono, WA, I'|].
                unfold src in I'. destruct (read p) as [t|e] eqn:R; [|easy].
                apply in_map_iff in I' as (text & <- & J). eapply wanted_read; eauto. apply in_app_iff. simpl. auto.
          -- auto.
          -- auto.
          -- intros j J. apply matched_mono. apply in_app_iff in J as [J|[<-|[]]]; auto.
          -- intros p' c' S C'. apply mem_path. apply seen_snoc in S as [S|S].
             ++ assert (X := AL p' c' S C'). apply mem_path in X as (c2 & I & SP). exists c2. split; auto. apply in_app_iff. auto.
             ++ injection S as ->. exists c. split; [apply in_app_iff; simpl; auto|]. rewrite C in C'. injection C' as ->. reflexivity.
          -- apply keys_distinct_insert; auto. apply path_eqb_equiv.
          -- intros p' src'. rewrite lookup_insert_path. destruct (path_eqb p' p) eqn:E.
             ++ intros Q; injection Q as <-. apply same_path_eqb in E. unfold src. destruct (read p) as [t|e] eqn:R; simpl.
                ** split; auto. split; [rewrite NA; simpl; lia|]. exists p. rewrite nth_error_app2 by lia. rewrite Nat.sub_diag. auto.
                ** exists p. split; auto. left. split; [apply in_app_iff; simpl; auto|]. eauto.
             ++ intros Q. apply entry_ok_mono. eauto.
          -- intros j S NN. apply seen_snoc in S as [S|S].
             ++ apply insert_known. auto.
             ++ subst j. simpl. rewrite lookup_insert_path, path_refl. discriminate.
          -- intros RS id p' P N. rewrite lookup_insert_path.
             destruct (Nat.lt_ge_cases id (List.length (rd_names st))) as [LT|GE].
             ++ rewrite nth_error_app1 in N by auto. destruct (path_eqb p' p) eqn:E; [|now apply found_ok_mono, FO].
                exfalso. apply same_path_eqb in E. destruct CA as (cs & CE & F2 & FP).
                rewrite NA in N. destruct id as [|id]; [lia|]. simpl in N.
                assert (exists c', canonicalize p' = Some c' /\ In c' cs) as (c' & C' & IC).
                { clear - F2 N. revert id N. induction F2 as [|x y l l' H F IH]; intros [|id] N; simpl in N; try discriminate.
                  - injection N as ->. exists y. simpl. auto.
                  - destruct (IH _ N) as (c' & A & B). exists c'. simpl. auto. }
                apply (NC c'); [rewrite CE; apply in_app_iff; auto|]. eapply RS; eauto.
             ++ rewrite nth_error_app2 in N by auto. destruct (id - List.length (rd_names st)) as [|k] eqn:D; [|destruct k; discriminate].
                simpl in N. injection N as <-. rewrite path_refl. unfold src. destruct (read p) as [t|e] eqn:R; simpl.
                ** split; auto. lia.
                ** left. eauto.
      + (* does not exist *)
        exists log. constructor; auto.
        * intros j J. apply in_app_iff in J as [J|[<-|[]]]; auto.
        * intros p' c' S C'. apply seen_snoc in S as [S|S]; eauto. injection S as ->. congruence.
        * intros j S NN. apply seen_snoc in S as [S|S]; auto. subst j. elim (NN p); auto.
    - (* an error *)
      exists log. constructor; simpl; auto.
      + intros j J. apply in_app_iff in J as [J|[<-|[]]]; auto.
      + intros p' c' S C'. apply seen_snoc in S as [S|S]; eauto. discriminate.
      + apply keys_distinct_insert; auto. apply path_eqb_equiv.
      + intros p' src. rewrite lookup_insert_path. destruct (path_eqb p' p) eqn:E; auto. intros Q; injection Q as <-.
        simpl. exists p. split; [now apply same_path_eqb|]. auto.
      + intros j S NN. apply seen_snoc in S as [S|S]; [apply insert_known; auto|].
        subst j. simpl. rewrite lookup_insert_path, path_refl. discriminate.
      + intros RS id p' P N. rewrite lookup_insert_path. destruct (path_eqb p' p) eqn:E; auto.
        simpl. right. exists p. split; auto. now apply same_path_eqb.
  Qed.

  Lemma read_items_inv q items : glob_with q = Ok items -> forall todo part log qs st,
    inv log qs [q] part st -> (forall i, In i todo -> In i items) ->
    exists log', inv log' qs [q] (part ++ todo) (fold_left read_item todo st).
  Proof.
    intros GW. induction todo as [|i todo IH]; intros part log qs st I SUB; simpl.
    - exists log. now rewrite app_nil_r.
    - destruct (read_item_inv log qs q items part st i I GW) as (log1 & I1); [apply SUB; now left|].
      destruct (IH _ _ _ _ I1) as (log2 & I2); [intros; apply SUB; now right|]. exists log2. now rewrite <- app_assoc in I2.
  Qed.

  Lemma insert_glob_inv log qs q part st g : inv log qs [q] part st -> g = glob_result q ->
    (forall i, seen (qs ++ [q]) [] i <-> seen qs part i) ->
    inv log (qs ++ [q]) [] [] (mk_reading (rd_names st) (rd_pending st) (insert path_eqb q g (rd_globs st)) (rd_content st) (rd_canonical st)).
  Proof.
    intros [NA CA WH WA GD GS PA AL DI CO KN FO] -> SE. constructor; simpl; auto.
    - intros x. rewrite WA, <- app_assoc. reflexivity.
    - intros x I. apply in_app_iff in I as [I|[<-|[]]]; [now apply insert_known, GD|].
      rewrite lookup_insert_path, path_refl. discriminate.
    - intros x g. rewrite lookup_insert_path. destruct (path_eqb x q) eqn:E.
      + intros Q; injection Q as <-. exists q. split; [now apply same_path_eqb|]. split; auto. apply in_app_iff. simpl. auto.
      + intros Q. destruct (GS _ _ Q) as (q' & A & B & C). exists q'. split; auto. split; auto. apply in_app_iff. auto.
    - intros ? [].
    - intros p c S. apply SE in S. eauto.
    - intros i S. apply SE in S. eauto.
  Qed.

  Lemma read_include_inv log qs st q rest :
    inv log qs [] [] st -> rd_pending st = q :: rest ->
    exists log', inv log' (qs ++ [q]) [] []
      (read_include (mk_reading (rd_names st) rest (rd_globs st) (rd_content st) (rd_canonical st)) q).
  Proof.
    intros I P.
    assert (I1 : inv log qs [q] [] (mk_reading (rd_names st) rest (rd_globs st) (rd_content st) (rd_canonical st))).
    { destruct I as [NA CA WH WA GD GS PA AL DI CO KN FO]. constructor; simpl; auto.
      intros x. rewrite WA, P. reflexivity. }
    unfold read_include. destruct (glob_with q) as [items|e] eqn:GW.
    - destruct (read_items_inv q items GW items [] log qs _ I1) as (log' & I2); auto.
      exists log'. eapply insert_glob_inv; eauto.
      + unfold SpecRead.glob_result. now rewrite GW.
      + intros i. unfold seen. simpl. split.
        * intros [(q' & its & J & G & K)|[]]. apply in_app_iff in J as [J|[<-|[]]]; [left; eauto|]. right. rewrite GW in G. injection G as <-. auto.
        * intros [(q' & its & J & G & K)|K]; left; [exists q', its|exists q, items]; rewrite in_app_iff; simpl; auto.
    - exists log. eapply (insert_glob_inv _ _ _ _ (mk_reading _ _ _ _ _) _ I1).
      + unfold SpecRead.glob_result. now rewrite GW.
      + intros i. unfold seen. simpl. split.
        * intros [(q' & its & J & G & K)|[]]. apply in_app_iff in J as [J|[<-|[]]]; [left; eauto|]. congruence.
        * intros [(q' & its & J & G & K)|[]]; left; exists q', its; rewrite in_app_iff; auto.
  Qed.

  Lemma read_loop_inv n : forall log qs st st', inv log qs [] [] st -> read_loop n st = Some st' ->
    exists log' qs', inv log' qs' [] [] st' /\ rd_pending st' = [].
  Proof.
    induction n as [|n IH]; intros log qs st st' I; simpl; destruct (rd_pending st) as [|q rest] eqn:P; try discriminate.
    - intros Q; injection Q as <-. eauto.
    - intros Q; injection Q as <-. eauto.
    - intros Q. destruct (read_include_inv _ _ _ _ _ I P) as (log' & I'). eapply IH; eauto.
  Qed.

  Lemma read_start_inv : inv [] [] [] [] (read_start get_includes canonicalize root content).
  Proof.
    constructor; simpl; auto.
    - exists []. rewrite app_nil_r. split; auto. split; auto.
      unfold SpecRead.root_canonical. destruct root as [p|]; [|constructor]. destruct (canonicalize p); repeat constructor.
    - intros [] ? ? E; discriminate.
    - intros q. split.
      + intros [text I|p c text []]. now apply in_map.
      + intros I. apply in_map_iff in I as (text & <- & I). now constructor.
    - discriminate.
    - tauto.
    - intros p c [(q & its & [] & _)|[]].
    - discriminate.
    - intros p [(q & its & [] & _)|[]].
    - intros _ id p P N. destruct id as [|id]; [lia|]. destruct id; discriminate.
  Qed.

  Theorem read_spec n s : read_with_includes get_includes glob_with canonicalize read n root content = Some s ->
    exists log, read_as log s.
  Proof.
    unfold read_with_includes. destruct (read_loop n _) as [st|] eqn:R; [|discriminate]. intros Q; injection Q as <-.
    destruct (read_loop_inv _ _ _ _ _ read_start_inv R) as (log & qs & [NA CA WH WA GD GS PA AL DI CO KN FO] & P).
    assert (WQ : forall q, wanted log q <-> In q qs).
    { intros q. rewrite WA, P. rewrite app_nil_r. reflexivity. }
    assert (MS : forall i, matched log i <-> seen qs [] i).
    { intros i. unfold seen. split.
      - intros (q & its & W & G & I). left. exists q, its. split; auto. now apply WQ.
      - intros [(q & its & I & G & J)|[]]. exists q, its. split; auto. now apply WQ. }
    exists log. constructor; simpl; auto.
    - destruct CA as (cs & E & F & D). exists cs. rewrite <- E. auto.
    - intros q W. apply GD. now apply WQ.
    - intros q g L. destruct (GS _ _ L) as (q' & A & B & C). exists q'. split; auto. split; auto. now apply WQ.
    - intros p c M C. apply MS in M. specialize (AL p c M C). apply mem_path in AL as (c' & I & S).
      destruct CA as (cs & E & F & D). rewrite E in I. exists c'. split; auto. apply in_app_iff in I as [I|I]; auto.
      right. clear - F I. induction F as [|x y l l' H F IH]; [easy|]. destruct I as [<-|I].
      + exists x. simpl. auto.
      + destruct (IH I) as (p' & A & B). exists p'. simpl. auto.
    - now apply path_keys_distinct.
    - intros i M. apply KN. now apply MS.
  Qed.

  (** The order of the table does not matter. *)
  Theorem read_any_spec n s : reads_to get_includes glob_with canonicalize read n root content s ->
    exists log, read_as log s.
  Proof.
    intros (s0 & H & R1 & R2 & R3 & R4 & R5 & P). destruct (read_spec n s0 H) as [log RA]. exists log.
    assert (D := ra_distinct _ _ _ _ _ _ _ _ RA). apply path_keys_distinct in D.
    assert (LK : forall p, lookup path_eqb p (included_content s) = lookup path_eqb p (included_content s0))
      by (intro p; symmetry; apply (lookup_perm path_eqb path_eqb_equiv); auto).
    constructor; rewrite ?R1, ?R2, ?R3, ?R4, ?R5; try apply RA.
    - intros p src. rewrite LK. apply (ra_content _ _ _ _ _ _ _ _ RA).
    - apply path_keys_distinct. eapply keys_distinct_perm; eauto. apply path_eqb_equiv.
    - intros i. rewrite LK. apply (ra_known _ _ _ _ _ _ _ _ RA).
    - intros C id p. rewrite LK. apply (ra_entries _ _ _ _ _ _ _ _ RA C).
  Qed.

  (** ** Termination *)

  Lemma read_item_progress all st i :
    (forall p c, canonicalize p = Some c -> exists c', In c' all /\ same_path c c') ->
    let unread st := List.length (filter (fun c => negb (mem path_eqb c (rd_canonical st))) all) in
    (rd_canonical (read_item st i) = rd_canonical st /\ rd_pending (read_item st i) = rd_pending st) \/
    unread (read_item st i) < unread st.
  Proof.
    intros FIN. simpl. destruct i as [p|p e]; simpl; auto.
    destruct (canonicalize p) as [c|] eqn:C; auto. destruct (mem path_eqb c (rd_canonical st)) eqn:M; simpl; auto.
    right. destruct (FIN p c C) as (c' & I & S).
    assert (MONO : forall x, mem path_eqb x (rd_canonical st) = true -> mem path_eqb x (rd_canonical st ++ [c]) = true).
    { intros x. rewrite !mem_path. intros (y & J & K). exists y. split; auto. apply in_app_iff. auto. }
    assert (M1 : mem path_eqb c' (rd_canonical st) = false).
    { destruct (mem path_eqb c' (rd_canonical st)) eqn:Q; auto. apply mem_path in Q as (y & J & K).
      assert (mem path_eqb c (rd_canonical st) = true); [|congruence].
      apply mem_path. exists y. split; auto. unfold same_path in *. congruence. }
    assert (M2 : mem path_eqb c' (rd_canonical st ++ [c]) = true).
    { apply mem_path. exists c. split; [apply in_app_iff; simpl; auto|]. now symmetry. }
    clear - I MONO M1 M2.
    assert (LE : forall l, List.length (filter (fun x => negb (mem path_eqb x (rd_canonical st ++ [c]))) l) <=
                 List.length (filter (fun x => negb (mem path_eqb x (rd_canonical st))) l)).
    { induction l as [|x l IH]; simpl; auto. destruct (mem path_eqb x (rd_canonical st)) eqn:Q.
      - rewrite (MONO _ Q). simpl. lia.
      - destruct (mem path_eqb x (rd_canonical st ++ [c])); simpl; lia. }
    induction all as [|x l IH]; [easy|]. destruct I as [->|I]; simpl.
    - rewrite M1, M2. simpl. specialize (LE l). lia.
    - specialize (IH I). destruct (mem path_eqb x (rd_canonical st)) eqn:Q; simpl.
      + rewrite (MONO _ Q). simpl. lia.
      + destruct (mem path_eqb x (rd_canonical st ++ [c])); simpl; lia.
  Qed.

  Lemma read_terminates_from : finite_fs canonicalize -> forall st, exists n, read_loop n st <> None.
  Proof.
    intros (all & FIN).
    set (unread st := List.length (filter (fun c => negb (mem path_eqb c (rd_canonical st))) all)).
    assert (ITEMS : forall items st, (rd_canonical (fold_left read_item items st) = rd_canonical st /\ rd_pending (fold_left read_item items st) = rd_pending st) \/
              unread (fold_left read_item items st) < unread st).
    { induction items as [|i items IH]; intros st; simpl; auto.
      destruct (read_item_progress all st i FIN) as [[A B]|A]; destruct (IH (read_item st i)) as [[C D]|C].
      - left. split; congruence.
      - right. assert (unread (read_item st i) = unread st) by (unfold unread; now rewrite A). lia.
      - right. unfold unread in *. rewrite C. exact A.
      - right. unfold unread in *. lia. }
    assert (MAIN : forall u m st, unread st < u -> List.length (rd_pending st) < m -> exists n, read_loop n st <> None).
    { induction u as [|u IHu]; [lia|]. induction m as [|m IHm]; [lia|]. intros st U L.
      destruct (rd_pending st) as [|q rest] eqn:P.
      - exists 0. simpl. rewrite P. discriminate.
      - set (st1 := mk_reading (rd_names st) rest (rd_globs st) (rd_content st) (rd_canonical st)).
        assert (exists n, read_loop n (read_include st1 q) <> None) as (n & N).
        { assert (PR : (rd_canonical (read_include st1 q) = rd_canonical st /\ rd_pending (read_include st1 q) = rest) \/ unread (read_include st1 q) < unread st).
          { unfold read_include. destruct (glob_with q) as [items|e]; [|left; auto]. simpl.
            destruct (ITEMS items st1) as [[A B]|A]; [left; auto|right; exact A]. }
          destruct PR as [[A B]|A].
          - apply IHm; [unfold unread in *; rewrite A; exact U|]. rewrite B. simpl in L. lia.
          - eapply IHu; [lia|]. apply Nat.lt_succ_diag_r. }
        exists (S n). simpl. rewrite P. exact N. }
    intros st. eapply MAIN; apply Nat.lt_succ_diag_r.
  Qed.

  Lemma read_loop_mono n : forall m st, n <= m -> read_loop n st <> None -> read_loop m st = read_loop n st.
  Proof.
    induction n as [|n IH]; intros m st L N; simpl in N; destruct (rd_pending st) as [|q rest] eqn:P.
    - destruct m; simpl; rewrite P; auto.
    - congruence.
    - destruct m as [|m]; [lia|]. simpl. now rewrite P.
    - destruct m as [|m]; [lia|]. simpl. rewrite P. apply IH; auto. lia.
  Qed.
End ReadFacts.
