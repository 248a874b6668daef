-Q theories Verif
theories/Base.v
theories/Text.v
theories/Ast.v
theories/Builder.v
theories/Engine.v
theories/Api.v
theories/TokIter.v
theories/Strings.v
theories/RepoTests.v
theories/Spec.v
theories/SpecProofs.v
theories/TextSpec.v
theories/TextProofs.v
theories/AstProofs.v
theories/BuilderProofs.v
theories/EngineRel.v
theories/ApiProofs.v
theories/Refuted.v
theories/Tree.v
theories/ParseProofs.v
theories/Den.v
theories/Checker.v
theories/CheckerProofs.v
theories/EngineProofs.v
theories/EngineOk.v
theories/EngineGood.v
theories/EngineMark.v
theories/Marker.v
theories/EngineMain.v
theories/OptProofs.v
theories/Runs.v
theories/Mono.v
theories/Scan.v
theories/Supported.v
theories/Main.v
theories/Captures.v
theories/SpecEnd.v
theories/Find.v
theories/Sound.v
theories/Safe.v
theories/Anchor.v
theories/MinSize.v
theories/Families.v
theories/First.v
theories/Heads.v
theories/SpecTok.v
theories/Tok.v
theories/End.v
theories/EndD.v
theories/Expr.v
theories/Roundtrip.v
theories/PropertiesText.v
theories/PropertiesTree.v
theories/PropertiesApi.v
theories/PropertiesMatch.v
theories/PropertiesSafe.v
theories/PropertiesFamilies.v
theories/PropertiesSyntax.v
theories/PropertiesTok.v
theories/PropertiesEnd.v
theories/PropertiesStr.v
theories/TokSafe.v
theories/SpecFields.v
theories/Fields.v
theories/FieldsPre.v
theories/PropertiesFields.v
theories/SpecLex.v
theories/PropertiesLex.v
theories/SpecParts.v
theories/Parts.v
theories/PartsSem.v
theories/PartsPre.v
theories/PropertiesParts.v
theories/SpecChoice.v
theories/ChoiceSem.v
theories/Choice.v
theories/PropertiesChoice.v
theories/OptChoice.v
theories/SpecAlts.v
theories/Alts.v
theories/PropertiesAlts.v
theories/SpecLL.v
theories/LL.v
theories/LLCap.v
theories/LLSem.v
theories/PropertiesLL.v
theories/SpecLLEnd.v
theories/LLEnd.v
theories/PropertiesLLEnd.v
theories/SpecMunch.v
theories/PropertiesMunch.v
theories/SpecCalm.v
theories/Calm.v
theories/PropertiesCalm.v
theories/SpecSure.v
theories/Sure.v
theories/SureSyn.v
theories/SureApi.v
theories/PropertiesSure.v
theories/SpecSmall.v
theories/Small.v
theories/PropertiesSmall.v
theories/PropertiesBind.v
theories/SpecCalmEnd.v
theories/CalmEnd.v
theories/PropertiesCalmEnd.v
theories/SpecLate.v
theories/Late.v
theories/PropertiesLate.v
theories/Bytes.v
theories/PropertiesBytes.v
theories/SpecSpell.v
theories/Spell.v
theories/PropertiesSpell.v
theories/Wrap.v
theories/PropertiesWrap.v
theories/Laws.v
theories/PropertiesLaws.v
theories/Shift.v
theories/PropertiesShift.v
theories/TokShift.v
theories/PropertiesTokShift.v
theories/Ranges.v
theories/PropertiesRanges.v
theories/SpecGroup.v
theories/Regroup.v
theories/PropertiesGroup.v
theories/SpecPut.v
theories/Middle.v
theories/Inside.v
theories/PropertiesInside.v
theories/SpecRun.v
theories/Apart.v
theories/PropertiesApart.v
theories/SpecOnce.v
theories/Once.v
theories/PropertiesOnce.v
theories/SpecFuse.v
theories/Fuse.v
theories/PropertiesFuse.v
