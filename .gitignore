.lia.cache
.nra.cache
*.nia.cache
.nia.cache
