-Q theories Verif
theories/Base.v
theories/SortedSets.v
theories/Values.v
theories/Sdd.v
theories/SddFacts.v
theories/DDModel.v
theories/DDGeneric.v
theories/DDFast.v
theories/DDProofs.v
theories/FlatSet.v
theories/Bitset.v
theories/Concrete.v
theories/Spec.v
theories/DDTheorems.v
theories/DDAlgebra.v
theories/DDProps.v
theories/ValuesMore.v
theories/ValuesProps.v
theories/Count.v
theories/Paths.v
theories/Tools.v
theories/ToolsProofs.v
theories/NodeSize.v
theories/CountProps.v
theories/Pow2.v
theories/HashTable.v
theories/HashProps.v
theories/Cached.v
theories/Cache.v
theories/CacheProofs.v
theories/CacheTheorems.v
theories/CacheProps.v
theories/Heap.v
theories/HeapProofs.v
theories/HeapTheorems.v
theories/HeapProps.v
theories/Arena.v
theories/ArenaProps.v
theories/Managers.v
theories/ManagersProps.v
theories/Orders.v
theories/OrdersProofs.v
theories/OrdersMore.v
theories/Force.v
theories/OrdersSdd.v
theories/OrdersProps.v
theories/Hom.v
theories/HomFacts.v
theories/HomEval.v
theories/HomTyped.v
theories/HomEqns.v
theories/HomLinear.v
theories/HomSum.v
theories/HomHalts.v
theories/HomComp.v
theories/HomInter.v
theories/HomFun.v
theories/HomPath.v
theories/HomRef.v
theories/HomConcrete.v
theories/HomProps.v
theories/HomCache.v
theories/HomCacheProps.v
theories/HomRewrite.v
theories/HomSaturation.v
theories/HomRewriteProps.v
theories/Variant.v
theories/VariantProps.v
theories/Hash.v
theories/HashEqProps.v
theories/Oom.v
theories/OomProps.v
theories/HomTools.v
theories/HomToolsProps.v
theories/HandleEq.v
theories/HandleEqProps.v
theories/Stats.v
theories/StatsProps.v
theories/Layout.v
theories/LayoutProps.v
theories/Moving.v
theories/MovingProofs.v
theories/MovingProps.v
theories/MovingHom.v
theories/MovingHomProofs.v
theories/MovingHomSafe.v
theories/MovingHomSim.v
theories/MovingHomProps.v
theories/Session.v
theories/SessionProofs.v
theories/SessionProps.v
theories/InterruptProps.v
theories/ClashProps.v
theories/Text.v
theories/JsonText.v
theories/JsonTextProofs.v
theories/JsonTextProps.v
theories/JsonReadProps.v
theories/SddText.v
theories/SddTextProps.v
theories/HomInd.v
theories/HomIndProps.v
theories/Rows.v
theories/Dictionary.v
theories/DictionaryProps.v
theories/Hanoi.v
theories/HanoiProofs.v
theories/HanoiProps.v
theories/Iterators.v
theories/IteratorsProps.v
theories/HomRegularProps.v
theories/OrderText.v
theories/OrderTextProps.v
theories/OrderWidth.v
theories/OrderWidthProps.v
theories/FlatHandles.v
theories/FlatHandlesSpec.v
theories/FlatHandlesProps.v
theories/CostProps.v
theories/HomMaps.v
theories/HomCode.v
theories/Scheduling.v
theories/SchedulingProofs.v
theories/SchedulingProps.v
theories/HomText.v
theories/HomTextProofs.v
theories/HomTextProps.v
theories/HomReplace.v
theories/HomReplaceProps.v
theories/ForceMore.v
theories/ForceInt.v
theories/ForceProps.v
theories/ForceDot.v
theories/ForceDotProps.v
theories/SddDot.v
theories/SddDotProps.v
theories/HomDot.v
theories/HomDotProps.v
theories/HomJson.v
theories/SddStats.v
theories/OrderArtificial.v
