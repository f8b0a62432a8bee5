.csdp.cache
.lia.cache
.nra.cache
.nia.cache
