-Q theories Verif
theories/Str.v
theories/Ast.v
theories/Render.v
theories/SpecRender.v
theories/StrFacts.v
theories/RenderFacts.v
theories/RenderRead.v
theories/RenderLoop.v
theories/ScopeFacts.v
theories/PropsRender.v
theories/Nom.v
theories/CssParser.v
theories/SpecSays.v
theories/NomFacts.v
theories/ParserSound.v
theories/ParserTotal.v
theories/SpecGrammar.v
theories/ParserLex.v
theories/ParserTokens.v
theories/ParserSel.v
theories/ParserGrammar.v
theories/ParserComplete.v
theories/ParserDecl.v
theories/PropsParser.v
theories/SheetCache.v
theories/PropsCache.v
theories/SpecReparse.v
theories/Reparse.v
theories/ReparseWritten.v
theories/PropsReparse.v
theories/Ids.v
theories/IdFacts.v
theories/Manager.v
theories/SpecManager.v
theories/ManagerFacts.v
theories/ManagerInv.v
theories/ManagerSteps.v
theories/ManagerCore.v
theories/ManagerProps.v
theories/Hydrate.v
theories/PropsManager.v
theories/StaticData.v
theories/SpecHydrate.v
theories/PropsHydrate.v
theories/Owned.v
theories/Serde.v
theories/SpecSerde.v
theories/PropsSerde.v
theories/Tok.v
theories/Fstring.v
theories/Output.v
theories/LitMacro.v
theories/SpecMacro.v
theories/FstringFacts.v
theories/SpecOutput.v
theories/OutputFacts.v
theories/MacroFacts.v
theories/MacroPlain.v
theories/PropsMacro.v
theories/Inline.v
theories/SpecInline.v
theories/InlineFacts.v
theories/InlineParse.v
theories/InlineOutput.v
theories/InlineSafe.v
theories/PropsInline.v
theories/Hooks.v
theories/SpecHooks.v
theories/HookFacts.v
theories/HookOnly.v
theories/HookTame.v
theories/HookKeep.v
theories/HookOnce.v
theories/PropsHooks.v
theories/SpecProgress.v
theories/Progress.v
theories/PropsProgress.v
theories/Provider.v
theories/SpecProvider.v
theories/ProviderFacts.v
theories/PropsProvider.v
theories/PropsGlobal.v
theories/Create.v
theories/SpecCreate.v
theories/CreateFacts.v
theories/PropsCreate.v
theories/SpecPage.v
theories/PropsPage.v
theories/SpecServed.v
theories/PropsServed.v
theories/MacroFn.v
theories/SpecMacroFn.v
theories/Component.v
theories/SpecComponent.v
theories/ComponentFacts.v
theories/PropsComponent.v
theories/Tree.v
theories/SpecTree.v
theories/TreeFacts.v
theories/PropsTree.v
theories/Living.v
theories/SpecLiving.v
theories/LivingFacts.v
theories/PropsLiving.v
theories/LeakFacts.v
theories/PropsLeak.v
theories/GoneFacts.v
theories/PropsGone.v
theories/SwitchFacts.v
theories/PropsSwitch.v
theories/PropValue.v
theories/SpecPropValue.v
theories/PropsPropValue.v
theories/ParserEmpty.v
theories/PropsEmpty.v
theories/PropsExact.v
theories/SpecInlineAny.v
theories/InlineAny.v
theories/PropsInlineAny.v
theories/PropsExact2.v
theories/SpecGlobalText.v
theories/GlobalText.v
theories/PropsExact3.v
theories/PropsShare.v
theories/SpecStatic.v
theories/PropsStatic.v
theories/SpecRename.v
theories/RenameFacts.v
theories/ComposeFacts.v
theories/PropsRename.v
theories/SpecJoin.v
theories/JoinFacts.v
theories/PropsJoin.v
theories/Attr.v
theories/SpecScope.v
theories/PropsAttr.v
theories/Threads.v
theories/SpecThreads.v
theories/ThreadFacts.v
theories/PropsThreads.v
theories/VNom.v
theories/VParser.v
theories/VFacts.v
theories/SpecError.v
theories/PropsError.v
theories/PropsThreadNames.v
theories/WNom.v
theories/WParser.v
theories/WFacts.v
theories/WBound.v
theories/WFlat.v
theories/WDeep.v
theories/WLow.v
theories/PropsWork.v
theories/SpecSize.v
theories/SizeFacts.v
theories/SizeText.v
theories/PropsSize.v
theories/SpecDepth.v
theories/DepthFacts.v
theories/DepthNest.v
theories/DepthGates.v
theories/PropsDepth.v
theories/Collect.v
theories/SpecCollect.v
theories/CollectFacts.v
theories/PropsCollect.v
theories/SpecClass.v
theories/ClassFacts.v
theories/PropsClass.v
theories/SpecValue.v
theories/PropsValue.v
theories/PropsAtRule.v
theories/PropsSelector.v
theories/SpecAnimation.v
theories/RenderFrames.v
theories/PropsAnimation.v
theories/SpecGuard.v
theories/PropsGuard.v
theories/SpecConfine.v
theories/PropsConfine.v
theories/PropsConfinePage.v
theories/SpecNested.v
theories/PropsNested.v
theories/PropsNestedPage.v
theories/PropsList.v
