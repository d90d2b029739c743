-Q theories Verif
theories/Prelude.v
theories/RawTable.v
theories/Optionals.v
theories/CycleMap.v
theories/ListFacts.v
theories/TableFacts.v
theories/Closures.v
theories/CycleMapSpec.v
theories/CycleMapProofs.v
theories/CycleMapProofs2.v
theories/CycleMapProofs3.v
theories/CycleMapHistory.v
theories/CycleMapHistoryProofs.v
theories/Concrete.v
theories/CycleMapProps.v
theories/CycleMapProps2.v
theories/CycleMapProps3.v
theories/CycleMapHashFree.v
theories/Serde.v
theories/SerdeProps.v
theories/OptionalsProps.v
theories/PartialCycleMap.v
theories/PartialSpec.v
theories/PartialProofs.v
theories/PartialProofs2.v
theories/PartialProofs3.v
theories/PartialProofs4.v
theories/PartialProofs5.v
theories/IterFacts.v
theories/PartialProofs6.v
theories/PartialProofs7.v
theories/PartialProofs8.v
theories/PartialHistory.v
theories/PartialHistoryProofs.v
theories/PartialProps.v
theories/PartialProps2.v
theories/PartialProps3.v
theories/PartialWidows.v
theories/PartialDefects.v
theories/PartialHashFree.v
theories/GroupMap.v
theories/GroupSpec.v
theories/GroupProofs.v
theories/GroupProofs2.v
theories/GroupProofs3.v
theories/GroupProofs4.v
theories/GroupProofs5.v
theories/GroupProofs6.v
theories/GroupHistory.v
theories/GroupHistoryProofs.v
theories/GroupProps.v
theories/GroupProps2.v
theories/GroupProps3.v
theories/GroupHashFree.v
theories/SoundTables.v
theories/CycleMapAny.v
theories/PartialAny.v
theories/GroupAny.v
theories/Debug.v
theories/CycleMapDebug.v
theories/PartialDebug.v
theories/GroupDebug.v
theories/Capacity.v
theories/CycleMapCapacity.v
theories/PartialCapacity.v
theories/GroupCapacity.v
theories/GroupDefects.v
theories/CycleMapDefects.v
theories/Drops.v
theories/CycleMapDrop.v
theories/Clones.v
theories/CycleMapClone.v
theories/PartialClone.v
theories/GroupClone.v
theories/Faults.v
theories/FaultTables.v
theories/CycleMapFault.v
theories/CycleMapFaultProofs.v
theories/CycleMapDamage.v
theories/CycleMapFaultProps.v
theories/CycleMapFaultProps2.v
theories/CycleMapFaultAny.v
theories/PartialFault.v
theories/PartialFaultProofs.v
theories/PartialFaultProps.v
theories/PartialFaultAny.v
theories/PartialFaultProps2.v
theories/PartialDrop.v
theories/GroupFault.v
theories/GroupFaultProofs.v
theories/GroupWreck.v
theories/GroupMend.v
theories/GroupFaultProps.v
theories/GroupFaultProps2.v
theories/GroupFaultAny.v
theories/GroupDrop.v
theories/Buckets.v
theories/CycleMapBuckets.v
theories/PartialBuckets.v
theories/Cost.v
theories/CycleMapCost.v
theories/PartialCost.v
theories/GroupCost.v
theories/CycleMapLax.v
theories/CycleMapLaxProofs.v
theories/CycleMapLaxProofs2.v
theories/CycleMapLaxProps.v
theories/Conserve.v
theories/CycleMapConserve.v
theories/PartialConserve.v
theories/GroupConserve.v
theories/CycleMapLaws.v
theories/PartialLaws.v
theories/GroupLaws.v
theories/CycleMapMirror.v
theories/PartialMirror.v
theories/SameMaps.v
theories/UserIter.v
theories/SerdeStream.v
theories/PartialLax.v
theories/PartialLaxProofs.v
theories/PartialLaxProofs2.v
theories/PartialLaxProofs3.v
theories/PartialLaxProofs4.v
theories/PartialLaxProps.v
theories/GroupLax.v
theories/GroupLaxProofs.v
theories/GroupLaxProofs2.v
theories/GroupLaxProofs3.v
theories/GroupLaxProofs4.v
theories/GroupLaxProps.v
theories/TestKit.v
theories/CycleMapTests.v
theories/PartialTests.v
theories/GroupTests.v
theories/OptionalsTests.v
theories/Wild.v
theories/CycleMapWild.v
theories/CycleMapWildSame.v
theories/CycleMapWildProps.v
theories/CycleMapWildPairs.v
theories/PartialWild.v
theories/PartialWildSame.v
theories/PartialWildProps.v
theories/GroupWild.v
theories/GroupWildSame.v
theories/GroupWildProps.v
theories/Settle.v
theories/CycleMapWildKept.v
theories/PartialWildKept.v
theories/GroupWildKept.v
theories/PartialWildPairs.v
theories/CycleMapCollect.v
theories/PartialCollect.v
theories/GroupCollect.v
theories/CloneRuns.v
theories/CycleMapCloneRuns.v
theories/PartialCloneRuns.v
theories/GroupCloneRuns.v
theories/DebugWriter.v
theories/CycleMapDebugWriter.v
theories/PartialDebugWriter.v
theories/GroupDebugWriter.v
theories/HasherKept.v
theories/CycleMapHasher.v
theories/PartialHasher.v
theories/GroupHasher.v
theories/Hints.v
theories/PartialHints.v
theories/GroupHints.v
theories/GroupDuplicate.v
theories/UserCalls.v
theories/CycleMapUserCalls.v
theories/PartialUserCalls.v
theories/GroupUserCalls.v
theories/CycleMapFilterHint.v
theories/PartialFilterHint.v
theories/GroupDistinct.v
theories/PartialDistinct.v
theories/GroupDistinctExtend.v
theories/PartialDistinctExtend.v
theories/CycleMapOrder.v
theories/PartialOrder.v
theories/GroupOrder.v
theories/CycleMapDistinct.v
